(** Specification vocabulary for the smooth functions (C59, C60), independent of how the operations are computed. *)
From Coq Require Import List Arith ZArith Reals.
From Verif Require Import PidModel MatModel AnaModel.
Import ListNotations.
Open Scope R_scope.

(** The function that two values of the codomain give, where defined: [h] is defined wherever [f] and [g] are, and has the value [op]. *)
Definition pointwise1 (op : R -> R) (f h : afn) : Prop :=
  forall x a, eval x f = Some a -> eval x h = Some (op a).
Definition pointwise2 (op : R -> R -> R) (f g h : afn) : Prop :=
  forall x a b, eval x f = Some a -> eval x g = Some b -> eval x h = Some (op a b).
(** The point [x] with its [n]-th coordinate replaced. *)
Definition moved (x : list R) (n : nat) (t : R) : list R := lset x n t.
(** The partial derivative of [f] in direction [n] at [x] exists and is [d]: the difference quotients are defined near [x] and tend to [d]. *)
Definition has_partial (f : afn) (n : nat) (x : list R) (d : R) : Prop :=
  forall eps, 0 < eps -> exists delta, 0 < delta /\ forall h, h <> 0 -> Rabs h < delta ->
    exists v v0, eval x f = Some v0 /\ eval (moved x n (nth n x 0 + h)) f = Some v /\ Rabs ((v - v0) / h - d) < eps.
(** Every broken power in [f] is taken of a number that is positive at [x] (at zero such a power is not differentiable, or only on one side). *)
Fixpoint regular (x : list R) (f : afn) : Prop :=
  match f with
  | AZero | AOne | AProj _ => True
  | ARealPow f a => regular x f /\ ((exists z, a = IZR z) \/ exists v, eval x f = Some v /\ 0 < v)
  | ASin f | ACos f => regular x f
  | ASum v => fold_right (fun p P => regular x (snd p) /\ P) True v
  | AProd v => fold_right (fun p P => regular x (snd p) /\ P) True v
  end.
(** No broken power at all. *)
Fixpoint integer_powers (f : afn) : Prop :=
  match f with
  | AZero | AOne | AProj _ => True
  | ARealPow f a => integer_powers f /\ exists z, a = IZR z
  | ASin f | ACos f => integer_powers f
  | ASum v => fold_right (fun p P => integer_powers (snd p) /\ P) True v
  | AProd v => fold_right (fun p P => integer_powers (snd p) /\ P) True v
  end.
