(** Model of the [Display] implementations of analysis/src/lib.rs.  Conventions as in ShowModel.v; the text of an [f64] is the parameter
    [sf] (the standard library's [Display for f64] is not modelled); numbers are those of AnaModel. *)
From Coq Require Import String Ascii List ZArith Bool Reals.
From Verif Require Import AnaModel MvModel ShowModel.
Import ListNotations.
Open Scope nat_scope.
Open Scope list_scope.

Section ShowFn.
  Variable sf : R -> text.
  (** alg/src/lin_alg.rs:409-435 [Display for Vector] with [f64] coefficients, the basis elements already printed. *)
  Definition first_term (t : R * text) : text :=
    if Reqb (fst t) 1 then snd t else if Reqb (fst t) (- (1)) then lit "-" ++ snd t else sf (fst t) ++ lit "·" ++ snd t.
  Definition other_term (t : R * text) : text := lit " + (" ++ sf (fst t) ++ lit ")·" ++ snd t.
  Definition show_terms (l : list (R * text)) : text :=
    match l with [] => lit "0" | t :: r => first_term t ++ concat (map other_term r) end.
  (** analysis/src/lib.rs:391-398: one factor of a product. *)
  Definition show_power (t : Z * text) : text := lit " " ++ snd t ++ if (fst t =? 1)%Z then [] else lit "^" ++ show_Z (fst t).
  (** analysis/src/lib.rs:384-404 [Display for AtomicSmoothFn]. *)
  Fixpoint show_fn (f : afn) : text :=
    match f with
    | AZero => lit "0"
    | AOne => lit "1"
    | AProj m => lit "x[" ++ show_nat m ++ lit "]"
    | ASin g => lit "sin(" ++ show_fn g ++ lit ")"
    | ACos g => lit "cos(" ++ show_fn g ++ lit ")"
    | ARealPow g a => lit "(" ++ show_fn g ++ lit ")^" ++ sf a
    | ASum v => lit "(" ++ show_terms (map (fun p => (fst p, show_fn (snd p))) v) ++ lit ")"
    | AProd v => concat (map show_power (map (fun p => (fst p, show_fn (snd p))) v))
    end.
  (** analysis/src/lib.rs:589-596 [Display for MultiVarFn]. *)
  Definition show_mv (F : mv) : text :=
    concat (map (fun ig => lit "f[" ++ show_nat (fst ig) ++ lit "] = " ++ show_fn (snd ig) ++ lit "," ++ ["010"%char])
                (combine (seq 0 (length (mv_fns F))) (mv_fns F))).
End ShowFn.
