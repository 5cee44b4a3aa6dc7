(** Specification vocabulary for cones. *)
From Coq Require Import List.
From Verif Require Import IsoSpec.
Import ListNotations.

(** The complex generated by [hist] is a cone with apex [a]: every attached simplex together with [a] lies in an attached
    simplex. *)
Definition is_cone {T} (a : T) (hist : list (list T)) : Prop := hist <> [] /\ forall s, In s hist -> face_of hist (a :: s).
