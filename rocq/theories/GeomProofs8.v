(** The output of [delaunay_triangulation] in exact arithmetic. *)
From Coq Require Import Reals List Arith Lia Lra Psatz ZArith Permutation Classical.
From Verif Require Import PidModel GeomModel GeomSpec GeomProofs GeomProofs2 GeomProofs3 GeomProofs4 GeomProofs5 GeomProofs6 GeomProofs7.
Import ListNotations.
Open Scope R_scope.

Lemma fold_v_add (l : list pt) (z : pt) : fold_left (v_add Rnum) l z = (fst z + fold_right Rplus 0 (map fst l), snd z + fold_right Rplus 0 (map snd l)).
Proof.
  revert z. induction l as [|x l IH]; intros z; cbn [fold_left map fold_right].
  - destruct z as [z0 z1]. cbn [fst snd]. f_equal; ring.
  - rewrite IH. unfold v_add. cbn. apply f_equal2; apply Rplus_assoc.
Qed.

Lemma original_points_aux (points : list pt) s1 s2 s3 : original_points Rnum points = Some (s1, s2, s3) -> aux_triangle points s1 s2 s3.
Proof.
  unfold original_points. rewrite fold_v_add. set (c0 := v_div Rnum _ _).
  assert (c0 = centroid points) as E0.
  { unfold c0, centroid, v_div. cbn [fst snd Rnum ndiv nof v_zero n0]. unfold v_zero. cbn [fst snd Rnum n0]. f_equal; f_equal; ring. }
  clearbody c0. subst c0. intros H.
  destruct (max_by Rnum _) as [mx|] eqn:E; [|discriminate]. cbn [obind] in H. injection H as <- <- <-. exists (mx + 1).
  assert (forall p, In p points -> sqrt (dist2 p (centroid points)) <= mx) as Hm.
  { intros p Hp. rewrite <- two_norm_dist. apply (max_by_ge _ _ E). apply in_map_iff. exists p. auto. }
  assert (exists p, In p points /\ sqrt (dist2 p (centroid points)) = mx) as (p0 & Hp0 & Ep0).
  { assert (exists m, max_by Rnum (map (fun p : vec Rnum => two_norm Rnum (v_sub Rnum p (centroid points))) points) = Some m /\ In m (map (fun p : vec Rnum => two_norm Rnum (v_sub Rnum p (centroid points))) points)) as (m & Em & Hin).
    { apply max_by_total; [destruct points; [discriminate|easy]|]. intros x y _ _. cbn. discriminate. }
    assert (m = mx) as -> by congruence. apply in_map_iff in Hin as (p & E2 & Hp). exists p. split; [easy|]. rewrite <- two_norm_dist. easy. }
  pose proof (sqrt_pos (dist2 p0 (centroid points))) as Hpos.
  split; [lra|]. split; [|split; [|split; [|split]]].
  - intros p Hp. specialize (Hm p Hp). pose proof (sqrt_pos (dist2 p (centroid points))). pose proof (sqrt_sqrt (dist2 p (centroid points)) (dist2_nonneg _ _)). nra.
  - exists p0. split; [easy|]. pose proof (sqrt_sqrt (dist2 p0 (centroid points)) (dist2_nonneg _ _)). rewrite Ep0 in H. lra.
  - unfold v_add. cbn. apply f_equal2; ring.
  - unfold v_add. cbn. assert (1 + 1 + 1 = 3) as -> by lra. apply f_equal2; ring.
  - unfold v_add. cbn. assert (1 + 1 + 1 = 3) as -> by lra. apply f_equal2; ring.
Qed.

Lemma original_points_total (points : list pt) : points <> [] -> exists s1 s2 s3, original_points Rnum points = Some (s1, s2, s3).
Proof.
  intros H. unfold original_points. set (c := v_div Rnum _ _).
  destruct (max_by_total Rnum (map (fun p : vec Rnum => two_norm Rnum (v_sub Rnum p c)) points)) as (m & Em & _).
  - destruct points; [easy|discriminate].
  - intros x y _ _. cbn. discriminate.
  - rewrite Em. cbn [obind]. eauto.
Qed.

Lemma aux_unique points s1 s2 s3 t1 t2 t3 : aux_triangle points s1 s2 s3 -> aux_triangle points t1 t2 t3 -> s1 = t1 /\ s2 = t2 /\ s3 = t3.
Proof.
  intros (r & Hr & Hmax & (p & Hp & Ep) & -> & -> & ->) (r' & Hr' & Hmax' & (p' & Hp' & Ep') & -> & -> & ->).
  assert (r = r') as -> by (pose proof (Hmax p' Hp'); pose proof (Hmax' p Hp); nra). auto.
Qed.

Lemma aux_super points s1 s2 s3 : aux_triangle points s1 s2 s3 ->
  exists r, super (centroid points) r (s1, s2, s3) /\ 1 <= r /\ forall p, In p points -> dist2 p (centroid points) <= (r - 1) * (r - 1).
Proof. intros (r & Hr & Hmax & _ & -> & -> & ->). exists r. unfold super. auto. Qed.

(** A duplicate of an earlier point is not used. *)
Section Dup.
  Variable points : list (vec Rnum).
  Variable orig : pt * pt * pt.
  Variables (ctr : pt) (r : R).
  Hypothesis Hsuper : super ctr r orig.
  Hypothesis Hr : 1 <= r.
  Hypothesis Hin : forall p, In p points -> dist2 p ctr <= (r - 1) * (r - 1).
  Notation n := (length points).
  Notation P := (pos Rnum points orig).

  Lemma dup_unused i j : (i < j)%nat -> (j < n)%nat -> P i = P j -> forall k, (k <= n)%nat -> forall a b c, Tri points orig k a b c -> a <> j.
  Proof.
    intros Hij Hj E. induction k as [|k IH]; intros Hk a b c H.
    - apply Tri_V in H; [|lia]. unfold V in H. lia.
    - pose proof (Inv_run points orig ctr r Hsuper Hr Hin k ltac:(lia)) as IK.
      apply (Tri_step points orig k ltac:(lia) IK) in H.
      assert (k = j -> forall x y z, ~ GeomProofs4.bad P (Tri points orig k) k x y z) as Hnb.
      { intros -> x y z [Ht Hb]. rewrite <- E in Hb. destruct (Rtotal_order 0 (orient (P x) (P y) (P z))) as [Ho|[Ho|Ho]].
        - pose proof (i_del _ _ _ _ IK x y z i Ht Ho ltac:(left; lia)). nra.
        - rewrite <- Ho in Hb. lra.
        - pose proof (i_del _ _ _ _ IK y x z i (i_swap _ _ _ _ IK _ _ _ Ht)) as Hd. rewrite orient_swap, incirc_swap in Hd. specialize (Hd ltac:(lra) ltac:(left; lia)). nra. }
      destruct H as [[H _]|[[Ek (z & Hb & _)]|[[Ek (z & Hb & _)]|[Ek (z & Hb & _)]]]].
      + apply (IH ltac:(lia) a b c H).
      + destruct Hb as [Hb _]. apply (IH ltac:(lia) a b z Hb).
      + intros ->. subst j. now apply (Hnb eq_refl) in Hb.
      + destruct Hb as [Hb _]. apply (IH ltac:(lia) a c z). now apply (i_swap _ _ _ _ IK).
  Qed.
End Dup.

(** The closed triangle is in the open disc, except for its vertices. *)
Lemma closed_triangle_disc o a b c x : circumcentre o a b c -> orient a b c <> 0 -> in_closed_triangle a b c x -> dist2 o a <= dist2 o x -> x = a \/ x = b \/ x = c.
Proof.
  intros [H1 H2] Hn (u & v & w & Hu & Hv & Hw & Hs & E0 & E1) Hle. apply orient_neq in Hn as (N1 & N2 & N3).
  assert (forall p q : pt, p <> q -> 0 < dist2 p q) as Hpos.
  { intros [p0 p1] [q0 q1] Hpq. unfold dist2. cbn [fst snd]. destruct (Req_dec p0 q0) as [->|D].
    - assert (p1 <> q1) by congruence. pose proof (Rsqr_pos_lt (p1 - q1) ltac:(lra)). unfold Rsqr in *. lra.
    - pose proof (Rsqr_pos_lt (p0 - q0) ltac:(lra)). pose proof (Rle_0_sqr (p1 - q1)). unfold Rsqr in *. lra. }
  assert (dist2 o x = u * dist2 o a + v * dist2 o b + w * dist2 o c - (u * v * dist2 a b + u * w * dist2 a c + v * w * dist2 b c)) as Ed.
  { unfold dist2. rewrite E0, E1. replace u with (1 - v - w) by lra. ring. }
  rewrite <- H1, <- H2 in Ed.
  assert (dist2 o x = dist2 o a - (u * v * dist2 a b + u * w * dist2 a c + v * w * dist2 b c)) as Ed'.
  { rewrite Ed. replace u with (1 - v - w) by lra. ring. }
  pose proof (Hpos a b N1) as P1. pose proof (Hpos a c N2) as P2. pose proof (Hpos b c N3) as P3.
  assert (0 <= u * v /\ 0 <= u * w /\ 0 <= v * w) as (M1 & M2 & M3) by (repeat split; apply Rmult_le_pos; easy).
  assert (0 <= u * v * dist2 a b /\ 0 <= u * w * dist2 a c /\ 0 <= v * w * dist2 b c) as (Q1 & Q2 & Q3) by (repeat split; apply Rmult_le_pos; lra).
  assert (u * v * dist2 a b = 0) as Z1 by lra. assert (u * w * dist2 a c = 0) as Z2 by lra. assert (v * w * dist2 b c = 0) as Z3 by lra.
  apply Rmult_integral in Z1 as [Z1|Z1]; [|lra]. apply Rmult_integral in Z2 as [Z2|Z2]; [|lra]. apply Rmult_integral in Z3 as [Z3|Z3]; [|lra].
  destruct x as [x0 x1], a as [a0 a1], b as [b0 b1], c as [c0 c1]. cbn [fst snd] in *. clear - Hs E0 E1 Z1 Z2 Z3.
  assert ((u = 1 /\ v = 0 /\ w = 0) \/ (u = 0 /\ v = 1 /\ w = 0) \/ (u = 0 /\ v = 0 /\ w = 1)) as Hc.
  { destruct (Req_dec u 0) as [Eu|Eu].
    - destruct (Req_dec v 0) as [Ev|Ev]; [right; right; lra|]. right; left. apply Rmult_integral in Z3 as [Z3|Z3]; [easy|]. lra.
    - left. apply Rmult_integral in Z1 as [Z1|Z1]; [easy|]. apply Rmult_integral in Z2 as [Z2|Z2]; [easy|]. lra. }
  destruct Hc as [(-> & -> & ->)|[(-> & -> & ->)|(-> & -> & ->)]]; [left|right; left|right; right]; f_equal; lra.
Qed.
