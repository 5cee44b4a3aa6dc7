(** Specification vocabulary for printed functions. *)
From Coq Require Import String Ascii List ZArith Bool Reals.
From Verif Require Import AnaModel ShowModel.
Import ListNotations.

(** What is used of [Display for f64], on the set [F] of the numbers that can be stored: different numbers print differently; the text
    consists of digits, a point and a sign; the text of a 32-bit integer is the text of that number only. *)
Definition f64_display (F : R -> Prop) (sf : R -> text) : Prop :=
  F 1%R /\ (forall a b, F a -> F b -> sf a = sf b -> a = b) /\
  (forall a, F a -> sf a <> [] /\ Forall (fun c => In c (lit "0123456789.-")) (sf a)) /\
  (forall a z, F a -> (- 2 ^ 31 <= z < 2 ^ 31)%Z -> sf a = show_Z z -> a = IZR z).
Definition is_product (f : afn) : Prop := match f with AProd _ => True | _ => False end.
(** No product is directly a factor of a product (analysis/src/lib.rs:240-243 state similar rules for [Sum] and [Zero]). *)
Fixpoint flat (f : afn) : Prop :=
  match f with
  | AZero | AOne | AProj _ => True
  | ARealPow g _ | ASin g | ACos g => flat g
  | ASum v => fold_right (fun p P => flat (snd p) /\ P) True v
  | AProd v => fold_right (fun p P => (~ is_product (snd p) /\ flat (snd p)) /\ P) True v
  end.
(** All coefficients and real exponents are in [F], all integer exponents are 32-bit. *)
Fixpoint numbers_in (F : R -> Prop) (f : afn) : Prop :=
  match f with
  | AZero | AOne | AProj _ => True
  | ASin g | ACos g => numbers_in F g
  | ARealPow g a => F a /\ numbers_in F g
  | ASum v => fold_right (fun p P => (F (fst p) /\ numbers_in F (snd p)) /\ P) True v
  | AProd v => fold_right (fun p P => ((- 2 ^ 31 <= fst p < 2 ^ 31)%Z /\ numbers_in F (snd p)) /\ P) True v
  end.
(** The functions a program can make from coordinates and constants with the operators and methods (not with the variants themselves). *)
Inductive built : afn -> Prop :=
| b_zero : built AZero
| b_one : built AOne
| b_proj n : built (AProj n)
| b_add f g h : built f -> built g -> a_add f g = Some h -> built h
| b_sub f g h : built f -> built g -> a_sub f g = Some h -> built h
| b_mul f g h : built f -> built g -> a_mul f g = Some h -> built h
| b_div f g h : built f -> built g -> a_div f g = Some h -> built h
| b_sum l h : Forall built l -> a_sum l = Some h -> built h
| b_prod l h : Forall built l -> a_prod l = Some h -> built h
| b_neg f : built f -> built (a_neg f)
| b_smul f c : built f -> built (a_smul f c)
| b_sdiv f c h : built f -> a_sdiv f c = Some h -> built h
| b_powi f e : built f -> built (a_powi f e)
| b_powf f a : built f -> built (a_powf f a)
| b_sin f : built f -> built (a_sin f)
| b_cos f : built f -> built (a_cos f)
| b_deriv n f h : built f -> pderiv n f = Some h -> built h.
(** The same function of the point, and the same domain. *)
Definition same_values (f g : afn) : Prop := forall x, eval x f = eval x g.
