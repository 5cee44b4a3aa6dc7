(** Specification vocabulary for isomorphic complexes and for comparing homology reports. *)
From Coq Require Import List Arith ZArith.
From Verif Require Import LinModel.
Import ListNotations.
Open Scope Z_scope.

(** The divisors other than 1 and -1, as positive numbers, repeated according to multiplicity. *)
Definition proper_divisors (ds : list (Z * nat)) : list Z := filter (fun d => negb (d =? 1)) (map Z.abs (flat_map (fun d => repeat (fst d) (snd d)) ds)).


(** The free rank and the proper divisors that a report lists in degree [k] (zero and none where it lists nothing). *)
Definition reported_rank {X Y} (out : list (module_ * X * Y)) (k : nat) : nat :=
  match nth_error out k with Some (h, _, _) => free_rank h | None => 0%nat end.
Definition reported_divisors {X Y} (out : list (module_ * X * Y)) (k : nat) : list Z :=
  match nth_error out k with Some (h, _, _) => proper_divisors (elementary_divisors h) | None => [] end.

(** The vertices of [c] are vertices of one attached simplex. *)
Definition face_of {T} (hist : list (list T)) (c : list T) : Prop := exists s, In s hist /\ incl c s.
(** [f] and [g] rename the vertices into each other and carry simplices to simplices. *)
Definition simplicial_iso {T U} (f : T -> U) (g : U -> T) (hist : list (list T)) (hist' : list (list U)) : Prop :=
  (forall s x, In s hist -> In x s -> g (f x) = x) /\ (forall s y, In s hist' -> In y s -> f (g y) = y) /\
  (forall s, In s hist -> face_of hist' (map f s)) /\ (forall s, In s hist' -> face_of hist (map g s)).
