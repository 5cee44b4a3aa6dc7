(** Specification vocabulary for unions of two complexes. *)
From Coq Require Import List Arith ZArith.
From Verif Require Import LinModel LinSpec IsoSpec.
Import ListNotations.

Definition vertex_of {T} (hist : list (list T)) (x : T) : Prop := exists s, In s hist /\ In x s.
(** At most one vertex in common; none. *)
Definition share_at_most_one {T} (hist1 hist2 : list (list T)) : Prop :=
  forall x y, vertex_of hist1 x -> vertex_of hist2 x -> vertex_of hist1 y -> vertex_of hist2 y -> x = y.
Definition disjoint {T} (hist1 hist2 : list (list T)) : Prop := forall x, vertex_of hist1 x -> vertex_of hist2 x -> False.
(** The reported group in degree [k]: [Z/m1 x .. x Z/mj] with [Z/0 = Z]. *)
Definition reported_group {X Y} (out : list (module_ * X * Y)) (k : nat) : list Z := repeat 0%Z (reported_rank out k) ++ reported_divisors out k.
(** The group reported by [out] is the direct sum of the two others: isomorphic to it, in particular with the sum of the free ranks and
    the product of the orders of the torsion subgroups. *)
Definition sum_in_degree {X Y X1 Y1 X2 Y2} (out : list (module_ * X * Y)) (out1 : list (module_ * X1 * Y1)) (out2 : list (module_ * X2 * Y2)) (k : nat) : Prop :=
  group_iso (reported_group out k) (reported_group out1 k ++ reported_group out2 k) /\
  reported_rank out k = (reported_rank out1 k + reported_rank out2 k)%nat /\
  fold_right Z.mul 1%Z (reported_divisors out k) = (fold_right Z.mul 1 (reported_divisors out1 k) * fold_right Z.mul 1 (reported_divisors out2 k))%Z.
