(** Plane geometry for the Delaunay properties, independent of the program: points are pairs of reals. *)
From Coq Require Import Reals List Arith Lia Lra.
Import ListNotations.
Open Scope R_scope.

Definition pt := (R * R)%type.
(** Squared distance. *)
Definition dist2 (p q : pt) : R := (fst p - fst q) * (fst p - fst q) + (snd p - snd q) * (snd p - snd q).
(** Twice the signed area of a triangle: positive when [a], [b], [c] turn counterclockwise, zero when they are on one line. *)
Definition orient (a b c : pt) : R := (fst b - fst a) * (snd c - snd a) - (snd b - snd a) * (fst c - fst a).
Definition collinear (a b c : pt) : Prop := orient a b c = 0.
(** [o] is the centre of a circle through the three points. *)
Definition circumcentre (o a b c : pt) : Prop := dist2 o a = dist2 o b /\ dist2 o a = dist2 o c.
(** [q] is strictly inside the circle through the three points; [q] is on it or inside. *)
Definition in_circle (a b c q : pt) : Prop := exists o, circumcentre o a b c /\ dist2 o q < dist2 o a.
Definition in_closed_circle (a b c q : pt) : Prop := exists o, circumcentre o a b c /\ dist2 o q <= dist2 o a.
(** [x] is strictly inside the triangle (for either order of its vertices): a combination of the vertices with positive weights. *)
Definition in_triangle (a b c x : pt) : Prop := exists u v w, 0 < u /\ 0 < v /\ 0 < w /\ u + v + w = 1 /\
  fst x = u * fst a + v * fst b + w * fst c /\ snd x = u * snd a + v * snd b + w * snd c.
(** The three indices of a triangle. *)
Definition is_triple (t : nat * nat * nat) (a b c : nat) : Prop := let '(x, y, z) := t in
  (a = x \/ a = y \/ a = z) /\ (b = x \/ b = y \/ b = z) /\ (c = x \/ c = y \/ c = z) /\ a <> b /\ a <> c /\ b <> c.
(** [x] is in the closed triangle. *)
Definition in_closed_triangle (a b c x : pt) : Prop := exists u v w, 0 <= u /\ 0 <= v /\ 0 <= w /\ u + v + w = 1 /\
  fst x = u * fst a + v * fst b + w * fst c /\ snd x = u * snd a + v * snd b + w * snd c.
(** The auxiliary vertices: an equilateral triangle around the centroid of the points whose inscribed circle has a radius one more than
    the largest distance of a point to the centroid. *)
Definition centroid (points : list pt) : pt :=
  (fold_right Rplus 0 (map fst points) / INR (length points), fold_right Rplus 0 (map snd points) / INR (length points)).
Definition aux_triangle (points : list pt) (s1 s2 s3 : pt) : Prop := let c := centroid points in exists r,
  1 <= r /\ (forall p, In p points -> dist2 p c <= (r - 1) * (r - 1)) /\ (exists p, In p points /\ dist2 p c = (r - 1) * (r - 1)) /\
  s1 = (fst c, snd c + 2 * r) /\ s2 = (fst c + sqrt 3 * r, snd c - r) /\ s3 = (fst c - sqrt 3 * r, snd c - r).
