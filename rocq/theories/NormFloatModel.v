(** The norms of alg/src/lin_alg/matrix_impl.rs and const_matrix_impl.rs at the type [f64] with rounding ([FloatModel]); [NumModel] has the same
    functions over the real numbers.  [f64::sqrt] is correctly rounded, [f64::abs] clears the sign, [<=] is false when one side is not a number.
    Simplification: as in [FloatModel], the empty sum is [+0.0]. *)
From Coq Require Import List Arith Bool.
From Flocq Require Import IEEE754.BinarySingleNaN.
From Verif Require Import PidModel MatModel FloatModel.
Import ListNotations.
Definition f_sqrt (x : binary64) : binary64 := Bsqrt mode_NE x.
Definition f_abs (x : binary64) : binary64 := Babs x.
Definition f_leb (x y : binary64) : bool := Bleb x y.
(** [.sum::<f64>()] *)
Definition f_sum (l : list binary64) : binary64 := fold_left f_add l f_zero.
(** [.fold(0.0, |max, val| if max<=val { val } else { max })] *)
Definition f_fold_max (l : list binary64) : binary64 := fold_left (fun mx v => if f_leb mx v then v else mx) l f_zero.

(** matrix_impl.rs:1649-1653 [one_norm] *)
Definition f_one_norm (M : mat binary64) : option binary64 :=
  do l <- omapM (fun j => do c <- omapM (fun i => do x <- mget M i j; Some (f_abs x)) (seq 0 (nr M)); Some (f_sum c)) (seq 0 (nc M));
  Some (f_fold_max l).
(** :1655-1661 [two_norm]; panics unless there is exactly one column *)
Definition f_two_norm (M : mat binary64) : option binary64 :=
  if nc M =? 1 then do l <- omapM (fun i => do x <- mget M i 0; Some (f_mul x x)) (seq 0 (nr M)); Some (f_sqrt (f_sum l)) else None.
(** :1663-1667 [inf_norm] *)
Definition f_inf_norm (M : mat binary64) : option binary64 :=
  do l <- omapM (fun i => do c <- omapM (fun j => do x <- mget M i j; Some (f_abs x)) (seq 0 (nc M)); Some (f_sum c)) (seq 0 (nr M));
  Some (f_fold_max l).
(** :1669-1676 [frobenius_norm] *)
Definition f_frobenius_norm (M : mat binary64) : option binary64 :=
  do l <- omapM (fun i => do c <- omapM (fun j => do x <- mget M i j; Some (f_mul x x)) (seq 0 (nc M)); Some (f_sum c)) (seq 0 (nr M));
  Some (f_sqrt (f_sum l)).
(** const_matrix_impl.rs:210-212 [ConstVector::dot], :215-219 [ConstVector::two_norm]; the length is a type parameter in Rust. *)
Definition f_cv_dot (a b : list binary64) : binary64 := f_sum (map (fun p => f_mul (fst p) (snd p)) (combine a b)).
Definition f_cv_two_norm (a : list binary64) : binary64 := f_sqrt (f_sum (map (fun x => f_mul x x) a)).
