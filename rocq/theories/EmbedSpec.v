(** Specification vocabulary for placing a subdivided graph in space. *)
From Coq Require Import String List Reals.
From Verif Require Import LabGraphModel.
Import ListNotations.
Open Scope R_scope.

(** The point that divides the segment from [a] to [b] in the ratio [r]. *)
Fixpoint on_segment (a b : list R) (r : R) : list R :=
  match a, b with x :: a', y :: b' => ((1 - r) * x + r * y) :: on_segment a' b' r | _, _ => [] end.
(** [out] places the vertex [u] at [p]. *)
Definition placed (out : list (svertex * list R)) (u : svertex) (p : list R) : Prop := In (u, p) out.
(** An embedding of a set of labels in [N]-dimensional space: one point for each of them. *)
Definition embeds (labels : string -> Prop) (N : nat) (emb : list (string * list R)) : Prop :=
  NoDup (map fst emb) /\ (forall s, In s (map fst emb) <-> labels s) /\ forall s p, In (s, p) emb -> length p = N.
