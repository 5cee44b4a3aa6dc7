(** Orientation and in-circle tests as polynomials. *)
From Coq Require Import Reals List Arith Lia Lra Psatz.
From Verif Require Import GeomSpec.
Open Scope R_scope.

(** [(x - a) . (x - b)]. *)
Definition gdot (a b x : pt) : R := (fst x - fst a) * (fst x - fst b) + (snd x - snd a) * (snd x - snd b).
(** Positive when [x] is strictly inside the circle of the positively oriented triangle [a b c]. *)
Definition incirc (a b c x : pt) : R := gdot a b c * orient a b x - gdot a b x * orient a b c.

Ltac geo := unfold incirc, gdot, orient, dist2; cbn [fst snd]; ring.

Lemma orient_rot a b c : orient b c a = orient a b c. Proof. geo. Qed.
Lemma orient_swap a b c : orient b a c = - orient a b c. Proof. geo. Qed.
Lemma orient_swap2 a b c : orient a c b = - orient a b c. Proof. geo. Qed.
Lemma incirc_rot a b c x : incirc b c a x = incirc a b c x. Proof. geo. Qed.
Lemma incirc_swap a b c x : incirc b a c x = - incirc a b c x. Proof. geo. Qed.
Lemma incirc_swap2 a b c x : incirc a c b x = - incirc a b c x. Proof. geo. Qed.
Lemma incirc_swap4 a b c x : incirc a b x c = - incirc a b c x. Proof. geo. Qed.
Lemma incirc_a a b c : incirc a b c a = 0. Proof. geo. Qed.
Lemma incirc_b a b c : incirc a b c b = 0. Proof. geo. Qed.
Lemma incirc_c a b c : incirc a b c c = 0. Proof. geo. Qed.

(** The Plücker relation of the pencil of circles through [a] and [b]. *)
Lemma pencil a b c d x : orient a b c * incirc a b d x = orient a b d * incirc a b c x - orient a b x * incirc a b c d.
Proof. geo. Qed.

(** A point in a circle and beyond the edge is in the circle of the triangle across the edge. *)
Lemma twin_bad a b c d p : 0 < orient a b c -> 0 < incirc a b c p -> orient a b p <= 0 -> orient a b d < 0 -> incirc a b c d <= 0 ->
  incirc a b d p < 0.
Proof. intros. pose proof (pencil a b c d p). nra. Qed.

(** The circle of a new triangle is empty, on the inner side ... *)
Lemma new_empty1 a b c p q : 0 < orient a b c -> 0 < orient a b p -> 0 < incirc a b c p -> incirc a b c q <= 0 -> 0 <= orient a b q ->
  incirc a b p q <= 0.
Proof. intros. pose proof (pencil a b c p q). nra. Qed.
(** ... and across the edge. *)
Lemma new_empty2 a b d p q : orient a b d < 0 -> 0 < orient a b p -> 0 <= incirc a b d p -> 0 <= incirc a b d q -> orient a b q <= 0 ->
  incirc a b p q <= 0.
Proof. intros. pose proof (pencil a b d p q). nra. Qed.

(** Two new triangles cannot leave a vertex on the same side. *)
Lemma same_side_le a b c p b' : 0 < orient a b c -> 0 < orient a b p -> 0 < incirc a b c p -> incirc a b c b' <= 0 -> incirc a b p b' = 0 ->
  orient a b b' <= 0.
Proof. intros. pose proof (pencil a b c p b'). nra. Qed.

Lemma collinear_perp a b x : orient a b x = 0 -> gdot a b x = 0 -> a <> b -> x = a \/ x = b.
Proof.
  destruct a as [a0 a1], b as [b0 b1], x as [x0 x1]. unfold orient, gdot. cbn [fst snd]. intros Ho Hg Hn.
  set (u := x0 - a0). set (v := x1 - a1). set (s := b0 - a0). set (t := b1 - a1).
  assert (s * v - t * u = 0) as H1 by (unfold u, v, s, t; lra).
  assert (u * (u - s) + v * (v - t) = 0) as H2 by (unfold u, v, s, t; lra).
  assert (u * (u * s + v * t - (s * s + t * t)) = 0) as H3.
  { assert (u * (u * s + v * t - (s * s + t * t)) = s * (u * (u - s) + v * (v - t)) - (v - t) * (s * v - t * u)) as -> by ring. rewrite H1, H2. ring. }
  assert (v * (u * s + v * t - (s * s + t * t)) = 0) as H4.
  { assert (v * (u * s + v * t - (s * s + t * t)) = t * (u * (u - s) + v * (v - t)) + (u - s) * (s * v - t * u)) as -> by ring. rewrite H1, H2. ring. }
  destruct (Req_dec (u * s + v * t - (s * s + t * t)) 0) as [E|E].
  - right. assert ((u - s) * (s * s + t * t) = 0).
    { assert ((u - s) * (s * s + t * t) = s * (u * s + v * t - (s * s + t * t)) - t * (s * v - t * u)) as -> by ring. rewrite E, H1. ring. }
    assert ((v - t) * (s * s + t * t) = 0).
    { assert ((v - t) * (s * s + t * t) = t * (u * s + v * t - (s * s + t * t)) + s * (s * v - t * u)) as -> by ring. rewrite E, H1. ring. }
    assert (s * s + t * t <> 0) as Hst.
    { intros Z. apply Hn. assert (s = 0) by nra. assert (t = 0) by nra. unfold s, t in *. f_equal; lra. }
    apply Rmult_integral in H as [H|H]; [|easy]. apply Rmult_integral in H0 as [H0|H0]; [|easy]. unfold u, v, s, t in *. f_equal; lra.
  - left. apply Rmult_integral in H3 as [H3|H3]; [|easy]. apply Rmult_integral in H4 as [H4|H4]; [|easy]. unfold u, v in *. f_equal; lra.
Qed.

Lemma orient_neq a b c : orient a b c <> 0 -> a <> b /\ a <> c /\ b <> c.
Proof.
  intros H. repeat split; intros E; apply H; subst; unfold orient; ring.
Qed.

(** The centre. *)
Lemma centre_exists a b c : orient a b c <> 0 -> exists o, circumcentre o a b c.
Proof.
  intros H. destruct a as [a0 a1], b as [b0 b1], c as [c0 c1]. unfold orient in H. cbn [fst snd] in H.
  set (s := b0 - a0) in *. set (t := b1 - a1) in *. set (u := c0 - a0) in *. set (v := c1 - a1) in *.
  assert (s * v - t * u <> 0) as H' by lra.
  exists (a0 + (v * (s * s + t * t) - t * (u * u + v * v)) / (2 * (s * v - t * u)), a1 + (s * (u * u + v * v) - u * (s * s + t * t)) / (2 * (s * v - t * u))).
  assert (b0 = a0 + s) as B0 by (unfold s; ring). assert (b1 = a1 + t) as B1 by (unfold t; ring).
  assert (c0 = a0 + u) as C0 by (unfold u; ring). assert (c1 = a1 + v) as C1 by (unfold v; ring).
  clearbody s t u v. subst b0 b1 c0 c1.
  unfold circumcentre, dist2. cbn [fst snd]. split; field; exact H'.
Qed.

Lemma centre_incirc o a b c q : circumcentre o a b c -> orient a b c * (dist2 o q - dist2 o a) = - incirc a b c q.
Proof.
  intros [H1 H2]. unfold circumcentre, dist2 in *. destruct o as [o0 o1], a as [a0 a1], b as [b0 b1], c as [c0 c1], q as [q0 q1].
  unfold incirc, gdot, orient. cbn [fst snd] in *.
  set (s := b0 - a0). set (t := b1 - a1). set (u := c0 - a0). set (v := c1 - a1). set (x := q0 - a0). set (y := q1 - a1).
  set (i := o0 - a0) in *. set (j := o1 - a1) in *.
  replace (o0 - b0) with (i - s) in H1 by (unfold i, s; ring). replace (o1 - b1) with (j - t) in H1 by (unfold j, t; ring).
  replace (o0 - c0) with (i - u) in H2 by (unfold i, u; ring). replace (o1 - c1) with (j - v) in H2 by (unfold j, v; ring).
  replace (o0 - q0) with (i - x) by (unfold i, x; ring). replace (o1 - q1) with (j - y) by (unfold j, y; ring).
  replace (c0 - b0) with (u - s) by (unfold u, s; ring). replace (c1 - b1) with (v - t) by (unfold v, t; ring).
  replace (q0 - b0) with (x - s) by (unfold x, s; ring). replace (q1 - b1) with (y - t) by (unfold y, t; ring).
  assert (2 * (i * s + j * t) = s * s + t * t) as E1 by lra. assert (2 * (i * u + j * v) = u * u + v * v) as E2 by lra.
  assert ((s * v - t * u) * ((i - x) * (i - x) + (j - y) * (j - y) - (i * i + j * j)) + ((u * (u - s) + v * (v - t)) * (s * y - t * x) - (x * (x - s) + y * (y - t)) * (s * v - t * u)) = 
    (s * y - t * x) * ((u * u + v * v) - 2 * (i * u + j * v)) - (y * u - x * v) * ((s * s + t * t) - 2 * (i * s + j * t))) as E.
  { ring. }
  rewrite E1, E2 in E. lra.
Qed.
