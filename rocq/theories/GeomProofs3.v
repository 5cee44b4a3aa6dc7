(** The circle test in exact arithmetic. *)
From Coq Require Import Reals List Arith Lia Lra Psatz.
From Verif Require Import GeomModel GeomSpec GeomProofs2.
Open Scope R_scope.

Lemma in_circle_incirc a b c q : orient a b c <> 0 -> (in_circle a b c q <-> 0 < orient a b c * incirc a b c q).
Proof.
  intros Hn. split.
  - intros (o & Ho & Hq). pose proof (centre_incirc o a b c q Ho). assert (0 < orient a b c * orient a b c) by nra. nra.
  - intros H. destruct (centre_exists a b c Hn) as (o & Ho). exists o. split; [easy|]. pose proof (centre_incirc o a b c q Ho).
    assert (0 < orient a b c * orient a b c) by nra. nra.
Qed.
Lemma in_closed_circle_incirc a b c q : orient a b c <> 0 -> (in_closed_circle a b c q <-> 0 <= orient a b c * incirc a b c q).
Proof.
  intros Hn. split.
  - intros (o & Ho & Hq). pose proof (centre_incirc o a b c q Ho). assert (0 < orient a b c * orient a b c) by nra. nra.
  - intros H. destruct (centre_exists a b c Hn) as (o & Ho). exists o. split; [easy|]. pose proof (centre_incirc o a b c q Ho).
    assert (0 < orient a b c * orient a b c) by nra. nra.
Qed.
Lemma centre_unique o o' a b c : orient a b c <> 0 -> circumcentre o a b c -> circumcentre o' a b c -> o = o'.
Proof.
  intros Hn [H1 H2] [H3 H4]. destruct o as [o0 o1], o' as [p0 p1], a as [a0 a1], b as [b0 b1], c as [c0 c1]. unfold orient, dist2 in *. cbn [fst snd] in *.
  assert ((o0 - p0) * (b0 - a0) + (o1 - p1) * (b1 - a1) = 0) as E1 by lra.
  assert ((o0 - p0) * (c0 - a0) + (o1 - p1) * (c1 - a1) = 0) as E2 by lra.
  set (D := (b0 - a0) * (c1 - a1) - (b1 - a1) * (c0 - a0)) in *.
  assert ((o0 - p0) * D = 0) as F1.
  { transitivity ((c1 - a1) * ((o0 - p0) * (b0 - a0) + (o1 - p1) * (b1 - a1)) - (b1 - a1) * ((o0 - p0) * (c0 - a0) + (o1 - p1) * (c1 - a1))); [unfold D; ring|]. rewrite E1, E2. ring. }
  assert ((o1 - p1) * D = 0) as F2.
  { transitivity ((b0 - a0) * ((o0 - p0) * (c0 - a0) + (o1 - p1) * (c1 - a1)) - (c0 - a0) * ((o0 - p0) * (b0 - a0) + (o1 - p1) * (b1 - a1))); [unfold D; ring|]. rewrite E1, E2. ring. }
  apply Rmult_integral in F1 as [F1|F1]; [|easy]. apply Rmult_integral in F2 as [F2|F2]; [|easy]. f_equal; lra.
Qed.

Lemma two_norm_R u : two_norm Rnum u = sqrt (fst u * fst u + snd u * snd u).
Proof. unfold two_norm. cbn. f_equal. ring. Qed.

Lemma two_norm_dist p q : two_norm Rnum (v_sub Rnum p q) = sqrt (dist2 p q).
Proof. rewrite two_norm_R. reflexivity. Qed.

(** The centre computed by the program. *)
Definition prog_centre (d0 d1 d2 : pt) : pt :=
  let two := INR 2 in
  let a := v_add Rnum d0 (v_div Rnum (v_sub Rnum d1 d0) two) in
  let b := orthogonal Rnum (v_sub Rnum d1 d0) in
  let c := v_add Rnum d0 (v_div Rnum (v_sub Rnum d2 d0) two) in
  let d := orthogonal Rnum (v_sub Rnum d2 d0) in
  let m := from_columns Rnum b (v_mul Rnum d (Ropp (INR 1))) in
  let m_inv := inverse Rnum m in
  let t := Rplus (Rmult (fst (fst m_inv)) (fst (v_sub Rnum c a))) (Rmult (snd (fst m_inv)) (snd (v_sub Rnum c a))) in
  v_add Rnum a (v_mul Rnum b t).

Lemma prog_centre_ok a b c : orient a b c <> 0 -> circumcentre (prog_centre a b c) a b c.
Proof.
  intros H. destruct a as [a0 a1], b as [b0 b1], c as [c0 c1]. unfold orient in H. cbn [fst snd] in H.
  set (s := b0 - a0) in *. set (t := b1 - a1) in *. set (u := c0 - a0) in *. set (v := c1 - a1) in *.
  assert (s * v - t * u <> 0) as H' by lra.
  unfold prog_centre, circumcentre, dist2, v_add, v_div, v_sub, v_mul, orthogonal, inverse, from_columns, v_div. cbn -[INR].
  change (INR 2) with 2. change (INR 1) with 1. fold s t u v.
  assert (b0 = a0 + s) as B0 by (unfold s; ring). assert (b1 = a1 + t) as B1 by (unfold t; ring).
  assert (c0 = a0 + u) as C0 by (unfold u; ring). assert (c1 = a1 + v) as C1 by (unfold v; ring).
  clearbody s t u v. subst b0 b1 c0 c1. clear H.
  assert (t * v * 0 + (s * v - t * u) <> 0) by lra.
  split; field; intros E; apply H'; lra.
Qed.

Lemma circ_contains_eq a b c p : circum_circle_contains Rnum (a, b, c) p =
  if Rlt_dec (sqrt (dist2 p (prog_centre a b c))) (sqrt (dist2 a (prog_centre a b c))) then true else false.
Proof. unfold circum_circle_contains, sphere_contains. rewrite !two_norm_dist. reflexivity. Qed.

Lemma dist2_sym p q : dist2 p q = dist2 q p.
Proof. unfold dist2. ring. Qed.
Lemma dist2_nonneg p q : 0 <= dist2 p q.
Proof. unfold dist2. apply Rplus_le_le_0_compat; apply Rle_0_sqr. Qed.

Lemma circ_contains_spec a b c p : orient a b c <> 0 ->
  (circum_circle_contains Rnum (a, b, c) p = true <-> 0 < orient a b c * incirc a b c p).
Proof.
  intros Hn. rewrite <- in_circle_incirc by easy. rewrite circ_contains_eq. pose proof (prog_centre_ok a b c Hn) as Ho.
  set (o := prog_centre a b c) in *. rewrite (dist2_sym p o), (dist2_sym a o).
  assert (sqrt (dist2 o p) < sqrt (dist2 o a) <-> dist2 o p < dist2 o a) as E.
  { split; intros H; [apply sqrt_lt_0_alt in H; exact H|]. apply sqrt_lt_1; auto using dist2_nonneg. }
  destruct (Rlt_dec (sqrt (dist2 o p)) (sqrt (dist2 o a))) as [H|H].
  - split; [|reflexivity]. intros _. exists o. split; [easy|]. now apply E.
  - split; [discriminate|]. intros (o' & Ho' & Hq). exfalso. apply H, E.
    rewrite (centre_unique o o' a b c Hn Ho Ho'). exact Hq.
Qed.
