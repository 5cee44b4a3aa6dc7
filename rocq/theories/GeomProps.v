(** C58, C68-C72: [geom::delaunay_triangulation] and [Triangle::circum_circle_contains]. *)
From Coq Require Import Reals List Arith Lia Lra Psatz ZArith Classical.
From Verif Require Import PidModel GeomModel GeomSpec GeomProofs GeomProofs2 GeomProofs3 GeomProofs4 GeomProofs5 GeomProofs6 GeomProofs7 GeomProofs8.
Import ListNotations.
Open Scope R_scope.

(** The triangle [T] consists of the points with the indices [t]. *)
Definition has_points {A} (points : list A) (T : A * A * A) (t : tri) : Prop :=
  let '(a, b, c) := t in let '(x, y, z) := T in nth_error points a = Some x /\ nth_error points b = Some y /\ nth_error points c = Some z.

(** C58: whatever the arithmetic computes (in particular whatever the outcome of the circle tests, for rounded numbers), a call on a
    non-empty list succeeds (the assertion holds, no index is out of range) as long as the distances to the mean of the points, as it is computed,
    can be compared; the index
    triples are strictly increasing, below the number of points and pairwise distinct, the triangles are the points with these indices, and
    each fails the circle test for all points that come after its last vertex. *)
Theorem C58_indices : forall (N : Num) (points : list (vec N)), points <> [] ->
  (forall c p q, c = v_div N (fold_left (v_add N) points (v_zero N)) (nof N (length points)) -> In p points -> In q points ->
     ncmp N (two_norm N (v_sub N p c)) (two_norm N (v_sub N q c)) <> None) ->
  exists out idx, delaunay_triangulation N points = Some (out, idx) /\ NoDup idx /\ Forall2 (has_points points) out idx /\
    forall a b c, In (a, b, c) idx -> (a < b /\ b < c /\ c < length points)%nat /\
      forall j A B C p, (c < j)%nat -> nth_error points a = Some A -> nth_error points b = Some B -> nth_error points c = Some C ->
        nth_error points j = Some p -> circum_circle_contains N (A, B, C) p = false.
Proof.
  intros N points Hne Hcmp.
  assert (exists orig, original_points N points = Some orig) as (orig & Ho).
  { unfold original_points. set (c := v_div N _ _). 
    destruct (max_by_total N (map (fun p => two_norm N (v_sub N p c)) points)) as (m & Em & _).
    - destruct points; [easy|discriminate].
    - intros x y Hx Hy. apply in_map_iff in Hx as (p & <- & Hp). apply in_map_iff in Hy as (q & <- & Hq). now apply Hcmp.
    - rewrite Em. cbn [obind]. eauto. }
  exists (map (tripos N points orig) (filter (inner N points) (run N points orig (length points)))), (filter (inner N points) (run N points orig (length points))).
  split; [now apply delaunay_eq|]. split; [apply NoDup_filter, run_NoDup; lia|].
  assert (forall a b c, In (a, b, c) (filter (inner N points) (run N points orig (length points))) -> (a < b /\ b < c /\ c < length points)%nat) as Hidx.
  { intros a b c H. apply filter_In in H as [H Hi]. pose proof (run_ok N points orig (length points) (le_n _)) as G. rewrite Forall_forall in G.
    apply G in H as [[H1 H2] _]. unfold inner in Hi. cbn [forallb tri_list] in Hi. rewrite !Bool.andb_true_iff, !Nat.ltb_lt in Hi. lia. }
  split.
  - assert (forall l, incl l (filter (inner N points) (run N points orig (length points))) -> Forall2 (has_points points) (map (tripos N points orig) l) l) as G.
    { induction l as [|t l IH]; intros Hi; cbn [map]; constructor; [|apply IH; intros u Hu; apply Hi; now right].
      destruct t as [[a b] c]. specialize (Hidx a b c (Hi _ ltac:(now left))). cbn. repeat split; apply nth_pos; lia. }
    apply G. intros t Ht. exact Ht.
  - intros a b c H. split; [now apply Hidx|]. intros j A B C p Hj HA HB HC Hp.
    pose proof (Hidx a b c H) as (L1 & L2 & L3). apply filter_In in H as [H _].
    assert (j < length points)%nat as Hjn by (apply nth_error_Some; congruence).
    pose proof (run_later N points orig (length points) (a, b, c) j (le_n _) H) as Hb. cbn [tri_list In] in Hb. specialize (Hb ltac:(intros; lia) Hjn).
    rewrite (nth_pos N points orig) in HA, HB, HC, Hp by lia. unfold badb in Hb. injection HA as <-. injection HB as <-. injection HC as <-. injection Hp as <-. exact Hb.
Qed.
Print Assumptions C58_indices.

(** C58: without points the call panics. *)
Theorem C58_empty_panics : forall N, delaunay_triangulation N [] = None.
Proof. reflexivity. Qed.
Print Assumptions C58_empty_panics.

(** C68: for a triangle whose vertices are not on one line there is exactly one centre, and the circle test (in exact arithmetic) says
    whether the point is closer to it than the vertices are. *)
Theorem C68_circle_test : forall a b c p : pt, ~ collinear a b c ->
  exists o, circumcentre o a b c /\ (forall o', circumcentre o' a b c -> o' = o) /\
    (circum_circle_contains Rnum (a, b, c) p = true <-> dist2 o p < dist2 o a).
Proof.
  intros a b c p Hn. destruct (centre_exists a b c Hn) as (o & Ho). exists o. split; [easy|].
  assert (forall o', circumcentre o' a b c -> o' = o) as Hu by (intros o' Ho'; now apply (centre_unique o' o a b c)).
  split; [easy|]. rewrite circ_contains_spec by easy. rewrite <- in_circle_incirc by easy. split.
  - intros (o' & Ho' & H). rewrite (Hu o' Ho') in H. easy.
  - intros H. exists o. auto.
Qed.
Print Assumptions C68_circle_test.

Example C68_circle_test_nonvacuous : ~ collinear (0, 0) (2, 0) (0, 2) /\ circum_circle_contains Rnum ((0, 0), (2, 0), (0, 2)) (1, 1/2) = true /\
  circum_circle_contains Rnum ((0, 0), (2, 0), (0, 2)) (2, 2) = false.
Proof.
  assert (~ collinear (0, 0) (2, 0) (0, 2)) as Hn by (unfold collinear, orient; cbn [fst snd]; lra).
  split; [easy|]. assert (circumcentre (1, 1) (0, 0) (2, 0) (0, 2)) as Hc by (unfold circumcentre, dist2; cbn [fst snd]; lra).
  destruct (C68_circle_test (0, 0) (2, 0) (0, 2) (1, 1/2) Hn) as (o & Ho & Hu & E). pose proof (Hu _ Hc) as <-.
  destruct (C68_circle_test (0, 0) (2, 0) (0, 2) (2, 2) Hn) as (o & Ho2 & Hu2 & E2). pose proof (Hu2 _ Hc) as <-. split.
  - apply E. unfold dist2. cbn [fst snd]. lra.
  - apply Bool.not_true_iff_false. rewrite E2. unfold dist2. cbn [fst snd]. lra.
Qed.

Lemma nth_R (points : list pt) orig x : (x < length points)%nat -> nth_error points x = Some (pos Rnum points orig x).
Proof. exact (nth_pos Rnum points orig x). Qed.
Lemma nth_pos_R (points : list pt) orig x q : nth_error points x = Some q -> pos Rnum points orig x = q.
Proof.
  intros H. assert (x < length points)%nat as Hx by (apply nth_error_Some; congruence). pose proof (nth_R points orig x Hx) as E.
  rewrite H in E. injection E as E. symmetry. exact E.
Qed.

(** The facts about a run in exact arithmetic. *)
Lemma run_facts (points : list pt) out idx : delaunay_triangulation Rnum points = Some (out, idx) ->
  exists s1 s2 s3 r, original_points Rnum points = Some (s1, s2, s3) /\ aux_triangle points s1 s2 s3 /\
    super (centroid points) r (s1, s2, s3) /\ 1 <= r /\ (forall p, In p points -> dist2 p (centroid points) <= (r - 1) * (r - 1)) /\
    idx = filter (inner Rnum points) (run Rnum points (s1, s2, s3) (length points)) /\ out = map (tripos Rnum points (s1, s2, s3)) idx.
Proof.
  intros H. destruct (original_points Rnum points) as [[[s1 s2] s3]|] eqn:E; [|unfold delaunay_triangulation in H; rewrite E in H; discriminate].
  pose proof (original_points_aux points s1 s2 s3 E) as Ha. destruct (aux_super _ _ _ _ Ha) as (r & H1 & H2 & H3).
  rewrite (delaunay_eq Rnum points _ E) in H. injection H as <- <-. exists s1, s2, s3, r. auto 10.
Qed.

Lemma idx_lt (points : list pt) orig a b c : In (a, b, c) (filter (inner Rnum points) (run Rnum points orig (length points))) ->
  (a < b /\ b < c /\ c < length points)%nat.
Proof.
  intros H. apply filter_In in H as [H Hi]. pose proof (run_ok Rnum points orig (length points) (le_n _)) as G. rewrite Forall_forall in G.
  apply G in H as [[H1 H2] _]. unfold inner in Hi. cbn [forallb tri_list] in Hi. rewrite !Bool.andb_true_iff, !Nat.ltb_lt in Hi. change (vec Rnum) with pt in Hi. lia.
Qed.

Lemma tri_empty (points : list pt) orig ctr r a b c q : super ctr r orig -> 1 <= r -> (forall p, In p points -> dist2 p ctr <= (r - 1) * (r - 1)) ->
  In (a, b, c) (run Rnum points orig (length points)) -> (q < length points + 3)%nat ->
  let P := pos Rnum points orig in ~ collinear (P a) (P b) (P c) /\ ~ in_circle (P a) (P b) (P c) (P q).
Proof.
  intros Hs Hr Hin Ht Hq P. pose proof (Inv_run points orig ctr r Hs Hr Hin (length points) (le_n _)) as I.
  apply L_Tri in Ht. assert (orient (P a) (P b) (P c) <> 0) as Hn by (now apply (i_nd _ _ _ _ I)). split; [easy|].
  rewrite in_circle_incirc by easy. assert (V points (length points) q) as HV by (unfold V; change (vec Rnum) with pt; lia).
  destruct (Rtotal_order 0 (orient (P a) (P b) (P c))) as [H|[H|H]].
  - pose proof (i_del _ _ _ _ I a b c q Ht H HV). unfold P in *. nra.
  - lra.
  - pose proof (i_del _ _ _ _ I b a c q (i_swap _ _ _ _ I _ _ _ Ht)) as Hd. rewrite orient_swap, incirc_swap in Hd. specialize (Hd ltac:(unfold P in H; lra) HV). unfold P in *. nra.
Qed.

(** C69: in exact arithmetic every returned triangle is a proper triangle and no input point is strictly inside its circle: the result is
    Delaunay, also when points are equal, collinear or on a common circle. *)
Theorem C69_empty_circles : forall (points : list pt) out idx, delaunay_triangulation Rnum points = Some (out, idx) ->
  forall a b c, In (a, b, c) out -> ~ collinear a b c /\ forall q, In q points -> ~ in_circle a b c q.
Proof.
  intros points out idx H a b c Ht. destruct (run_facts points out idx H) as (s1 & s2 & s3 & r & _ & _ & Hs & Hr & Hin & Ei & ->).
  apply in_map_iff in Ht as ([[x y] z] & E & Ht). cbn in E. injection E as <- <- <-. rewrite Ei in Ht. apply filter_In in Ht as [Ht _].
  split; [now apply (tri_empty points (s1, s2, s3) (centroid points) r x y z 0%nat Hs Hr Hin Ht ltac:(lia))|].
  intros q Hq. apply In_nth_error in Hq as (j & Hj). assert (j < length points)%nat as Hjn by (apply nth_error_Some; congruence).
  rewrite <- (nth_pos_R points (s1, s2, s3) j q Hj).
  now apply (tri_empty points (s1, s2, s3) (centroid points) r x y z j Hs Hr Hin Ht ltac:(lia)).
Qed.
Print Assumptions C69_empty_circles.

(** C69: no input point is in a returned triangle or on its border, except for its vertices. *)
Theorem C69_no_point_in_triangle : forall (points : list pt) out idx, delaunay_triangulation Rnum points = Some (out, idx) ->
  forall a b c q, In (a, b, c) out -> In q points -> in_closed_triangle a b c q -> q = a \/ q = b \/ q = c.
Proof.
  intros points out idx H a b c q Ht Hq Hx. destruct (C69_empty_circles points out idx H a b c Ht) as [Hn He].
  destruct (centre_exists a b c Hn) as (o & Ho). apply (closed_triangle_disc o a b c q Ho Hn Hx). apply Rnot_lt_le. intros Hlt. apply (He q Hq). exists o. auto.
Qed.
Print Assumptions C69_no_point_in_triangle.

(** C69: a point that is equal to an earlier one is not a vertex of the result. *)
Theorem C69_duplicates_unused : forall (points : list pt) out idx i j p, delaunay_triangulation Rnum points = Some (out, idx) ->
  (i < j)%nat -> nth_error points i = Some p -> nth_error points j = Some p -> forall a b c, In (a, b, c) idx -> a <> j /\ b <> j /\ c <> j.
Proof.
  intros points out idx i j p H Hij Hi Hj a b c Ht. destruct (run_facts points out idx H) as (s1 & s2 & s3 & r & _ & _ & Hs & Hr & Hin & Ei & ->).
  assert (i < length points)%nat as Hin' by (apply nth_error_Some; congruence). assert (j < length points)%nat as Hjn by (apply nth_error_Some; congruence).
  assert (pos Rnum points (s1, s2, s3) i = pos Rnum points (s1, s2, s3) j) as E.
  { now rewrite (nth_pos_R points (s1, s2, s3) i p Hi), (nth_pos_R points (s1, s2, s3) j p Hj). }
  rewrite Ei in Ht. apply filter_In in Ht as [Ht _]. apply L_Tri in Ht.
  pose proof (dup_unused points (s1, s2, s3) (centroid points) r Hs Hr Hin i j Hij Hjn E (length points) (le_n _)) as G.
  repeat split; [apply (G a b c Ht)|apply (G b c a)|apply (G c a b)]; [now apply Tri_rot|now apply Tri_rot, Tri_rot].
Qed.
Print Assumptions C69_duplicates_unused.

(** C70: two returned triangles have no interior point in common. *)
Theorem C70_interiors_disjoint : forall (points : list pt) out idx i j a b c a' b' c' x,
  delaunay_triangulation Rnum points = Some (out, idx) -> nth_error out i = Some (a, b, c) -> nth_error out j = Some (a', b', c') ->
  in_triangle a b c x -> in_triangle a' b' c' x -> i = j.
Proof.
  intros points out idx i j a b c a' b' c' x H Hi Hj Hx Hx'. destruct (run_facts points out idx H) as (s1 & s2 & s3 & r & _ & _ & Hs & Hr & Hin & Ei & ->).
  rewrite nth_error_map in Hi, Hj. destruct (nth_error idx i) as [t|] eqn:E1; [|discriminate]. destruct (nth_error idx j) as [t'|] eqn:E2; [|discriminate].
  cbn in Hi, Hj. injection Hi as Hi. injection Hj as Hj.
  assert (t = t') as ->.
  { apply nth_error_In in E1 as I1. apply nth_error_In in E2 as I2. rewrite Ei in I1, I2. apply filter_In in I1 as [I1 _]. apply filter_In in I2 as [I2 _].
    apply (interiors_disjoint points (s1, s2, s3) (centroid points) r Hs Hr Hin t t' x I1 I2).
    - destruct t as [[u v] w]. cbn in Hi. injection Hi as <- <- <-. exact Hx.
    - destruct t' as [[u v] w]. cbn in Hj. injection Hj as <- <- <-. exact Hx'. }
  assert (NoDup idx) as Hnd by (rewrite Ei; apply NoDup_filter, run_NoDup; apply le_n).
  apply (proj1 (NoDup_nth_error idx) Hnd); [|congruence]. apply nth_error_Some. congruence.
Qed.
Print Assumptions C70_interiors_disjoint.

(** C71: a triangle of input points that has no other input point and no auxiliary vertex in its closed disc is returned. *)
Theorem C71_complete : forall (points : list pt) s1 s2 s3 out idx i j k a b c,
  delaunay_triangulation Rnum points = Some (out, idx) -> aux_triangle points s1 s2 s3 -> (i < j)%nat -> (j < k)%nat ->
  nth_error points i = Some a -> nth_error points j = Some b -> nth_error points k = Some c -> ~ collinear a b c ->
  (forall l q, nth_error points l = Some q -> l <> i -> l <> j -> l <> k -> ~ in_closed_circle a b c q) ->
  ~ in_closed_circle a b c s1 -> ~ in_closed_circle a b c s2 -> ~ in_closed_circle a b c s3 ->
  In (i, j, k) idx /\ In (a, b, c) out.
Proof.
  intros points s1 s2 s3 out idx i j k a b c H Haux Hij Hjk Ha Hb Hc Hn He H1 H2 H3.
  destruct (run_facts points out idx H) as (t1 & t2 & t3 & r & _ & Haux' & Hs & Hr & Hin & Ei & ->).
  destruct (aux_unique _ _ _ _ _ _ _ Haux Haux') as (E1 & E2 & E3). subst t1 t2 t3. set (orig := (s1, s2, s3)) in *.
  assert (k < length points)%nat as Hk by (apply nth_error_Some; congruence).
  pose proof (nth_pos_R points orig i a Ha) as Ea. pose proof (nth_pos_R points orig j b Hb) as Eb. pose proof (nth_pos_R points orig k c Hc) as Ec.
  assert (In (i, j, k) idx) as Hidx.
  { rewrite Ei. apply filter_In. split.
    - pose proof (sort3_id (i, j, k) (conj Hij Hjk)) as Es. cbn beta iota in Es. rewrite <- Es.
      apply (complete points orig (centroid points) r Hs Hr Hin); try (change (vec Rnum) with pt; lia); [rewrite Ea, Eb, Ec; exact Hn|].
      intros q Hq Q1 Q2 Q3. rewrite Ea, Eb, Ec. change (vec Rnum) with pt in Hq. destruct (Nat.lt_ge_cases q (length points)) as [L|L].
      + apply (He q); auto. now apply nth_R.
      + destruct (P_orig points orig (centroid points) r Hs) as (p1 & p2 & p3 & E & F1 & F2 & F3). injection E as <- <- <-.
        change (vec Rnum) with pt in F1, F2, F3.
        assert (q = length points \/ q = length points + 1 \/ q = length points + 2)%nat as [->|[->| ->]] by lia.
        * now rewrite F1.
        * now rewrite F2.
        * now rewrite F3.
    - unfold inner. cbn [forallb tri_list]. change (vec Rnum) with pt. rewrite !Bool.andb_true_iff, !Nat.ltb_lt. lia. }
  split; [easy|]. apply in_map_iff. exists (i, j, k). split; [|easy]. rewrite <- Ea, <- Eb, <- Ec. reflexivity.
Qed.
Print Assumptions C71_complete.

(** C72: no auxiliary vertex is strictly inside the circle of a returned triangle. *)
Theorem C72_aux_outside : forall (points : list pt) s1 s2 s3 out idx a b c, delaunay_triangulation Rnum points = Some (out, idx) ->
  aux_triangle points s1 s2 s3 -> In (a, b, c) out -> ~ in_circle a b c s1 /\ ~ in_circle a b c s2 /\ ~ in_circle a b c s3.
Proof.
  intros points s1 s2 s3 out idx a b c H Haux Ht.
  destruct (run_facts points out idx H) as (t1 & t2 & t3 & r & _ & Haux' & Hs & Hr & Hin & Ei & ->).
  destruct (aux_unique _ _ _ _ _ _ _ Haux Haux') as (E1 & E2 & E3). subst t1 t2 t3. set (orig := (s1, s2, s3)) in *.
  apply in_map_iff in Ht as ([[x y] z] & E & Ht). cbn in E. injection E as <- <- <-. rewrite Ei in Ht. apply filter_In in Ht as [Ht _].
  destruct (P_orig points orig (centroid points) r Hs) as (p1 & p2 & p3 & E & F1 & F2 & F3). injection E as <- <- <-.
  pose proof (fun q Hq => proj2 (tri_empty points orig (centroid points) r x y z q Hs Hr Hin Ht Hq)) as G. cbv zeta in G. change (vec Rnum) with pt in *.
  pose proof (G (length points) ltac:(lia)) as G1. pose proof (G (length points + 1)%nat ltac:(lia)) as G2. pose proof (G (length points + 2)%nat ltac:(lia)) as G3.
  rewrite F1 in G1. rewrite F2 in G2. rewrite F3 in G3. split; [exact G1|]. split; [exact G2|exact G3].
Qed.
Print Assumptions C72_aux_outside.

(** C71: in general position (no input point or auxiliary vertex on the circle of three other points) the result is exactly the set of
    triangles whose circles contain none of them. *)
Theorem C71_exact : forall (points : list pt) s1 s2 s3 out idx,
  delaunay_triangulation Rnum points = Some (out, idx) -> aux_triangle points s1 s2 s3 ->
  (forall i j k a b c o q l, (i < j)%nat -> (j < k)%nat -> nth_error points i = Some a -> nth_error points j = Some b -> nth_error points k = Some c ->
     ~ collinear a b c -> circumcentre o a b c -> l <> i -> l <> j -> l <> k -> nth_error (points ++ [s1; s2; s3]) l = Some q -> dist2 o q <> dist2 o a) ->
  forall i j k, In (i, j, k) idx <->
    exists a b c, (i < j)%nat /\ (j < k)%nat /\ nth_error points i = Some a /\ nth_error points j = Some b /\ nth_error points k = Some c /\
      ~ collinear a b c /\ forall q, In q (points ++ [s1; s2; s3]) -> ~ in_circle a b c q.
Proof.
  intros points s1 s2 s3 out idx H Haux Hgp i j k. split.
  - intros Ht. destruct (run_facts points out idx H) as (t1 & t2 & t3 & r & _ & _ & Hs & Hr & Hin & Ei & Eo).
    assert (In (tripos Rnum points (t1, t2, t3) (i, j, k)) out) as Hout by (rewrite Eo; now apply in_map).
    pose proof Ht as Ht'. rewrite Ei in Ht'. apply idx_lt in Ht' as (L1 & L2 & L3).
    set (P := pos Rnum points (t1, t2, t3)) in *. change (tripos Rnum points (t1, t2, t3) (i, j, k)) with (P i, P j, P k) in Hout.
    exists (P i), (P j), (P k). pose proof (fun x Hx => nth_R points (t1, t2, t3) x Hx) as NP. fold P in NP.
    split; [easy|]. split; [easy|]. split; [apply NP; lia|]. split; [apply NP; lia|]. split; [apply NP; lia|].
    destruct (C69_empty_circles _ _ _ H _ _ _ Hout) as [Hn He]. split; [easy|]. intros q Hq. apply in_app_iff in Hq as [Hq|Hq]; [now apply He|].
    destruct (C72_aux_outside _ _ _ _ _ _ _ _ _ H Haux Hout) as (A1 & A2 & A3). destruct Hq as [<-|[<-|[<-|[]]]]; easy.
  - intros (a & b & c & L1 & L2 & Ha & Hb & Hc & Hn & He).
    assert (k < length points)%nat as Lk by (apply nth_error_Some; congruence).
    assert (forall l q, nth_error (points ++ [s1; s2; s3]) l = Some q -> l <> i -> l <> j -> l <> k -> ~ in_closed_circle a b c q) as Hout.
    { intros l q Hl N1 N2 N3 (o & Ho & Hle). assert (dist2 o q <> dist2 o a) as Hne by (now apply (Hgp i j k a b c o q l)).
      apply (He q); [now apply nth_error_In in Hl|]. exists o. split; [easy|]. lra. }
    apply (C71_complete points s1 s2 s3 out idx i j k a b c H Haux L1 L2 Ha Hb Hc Hn).
    + intros l q Hl. apply Hout. rewrite nth_error_app1; [easy|]. apply nth_error_Some. congruence.
    + apply (Hout (length points)); [rewrite nth_error_app2, Nat.sub_diag by lia; reflexivity|lia..].
    + apply (Hout (length points + 1)%nat); [rewrite nth_error_app2 by lia; now replace (length points + 1 - length points)%nat with 1%nat by lia|lia..].
    + apply (Hout (length points + 2)%nat); [rewrite nth_error_app2 by lia; now replace (length points + 2 - length points)%nat with 2%nat by lia|lia..].
Qed.
Print Assumptions C71_exact.

Lemma delaunay_total (points : list pt) : points <> [] -> exists out idx, delaunay_triangulation Rnum points = Some (out, idx) /\
  exists s1 s2 s3, aux_triangle points s1 s2 s3.
Proof.
  intros H. destruct (original_points_total points H) as (s1 & s2 & s3 & E). eexists _, _. split; [exact (delaunay_eq Rnum points _ E)|].
  exists s1, s2, s3. now apply original_points_aux.
Qed.

(** C72: the points need not be triangulated: for three points that are not on one line the result can be empty, because the circle of the
    triangle contains an auxiliary vertex (here for a triangle ten times as wide as it is high). *)
Definition flat_triangle : list pt := [(-899, -60); (899, -60); (0, 120)].
Theorem C72_refuted_nonempty :
  ~ collinear (-899, -60) (899, -60) (0, 120) /\ delaunay_triangulation Rnum flat_triangle = Some ([], []).
Proof.
  split; [unfold collinear, orient; cbn [fst snd]; lra|].
  destruct (delaunay_total flat_triangle ltac:(discriminate)) as (out & idx & H & s1 & s2 & s3 & Haux).
  assert (out = []) as Eo.
  { destruct out as [|[[a b] c] out]; [reflexivity|exfalso].
    destruct (run_facts _ _ _ H) as (t1 & t2 & t3 & r & _ & Haux' & _ & _ & _ & Ei & Eo).
    destruct idx as [|[[i j] k] idx]; [discriminate|]. 
    assert (In (i, j, k) (filter (inner Rnum flat_triangle) (run Rnum flat_triangle (t1, t2, t3) (length flat_triangle)))) as Hin by (rewrite <- Ei; now left).
    apply idx_lt in Hin as (L1 & L2 & L3). cbn in L3. assert (i = 0%nat /\ j = 1%nat /\ k = 2%nat) as (-> & -> & ->) by lia.
    cbn [map] in Eo. injection Eo as Ea Eb Ec _. cbn in Ea, Eb, Ec.
    destruct (C72_aux_outside _ _ _ _ _ _ a b c H Haux ltac:(now left)) as (_ & A2 & _). apply A2. clear A2. subst a b c.
    destruct Haux as (r' & Hr & Hmax & (p & Hp & Ep) & _ & -> & _).
    assert (centroid flat_triangle = (0, 0)) as Ecen by (unfold centroid; cbn; apply f_equal2; field).
    rewrite Ecen in *. cbn [fst snd].
    assert (r' = 902) as ->.
    { pose proof (Hmax (-899, -60) ltac:(now left)) as M. unfold dist2 in M, Ep. cbn [fst snd] in M.
      destruct Hp as [<-|[<-|[<-|[]]]]; cbn [fst snd] in Ep; nra. }
    exists (0, -797401 / 360). destruct sqrt3 as [S0 S1]. unfold circumcentre, dist2. cbn [fst snd]. split; [lra|]. nra. }
  subst out. rewrite H. destruct (run_facts _ _ _ H) as (t1 & t2 & t3 & r & _ & _ & _ & _ & _ & _ & Eo). destruct idx; [reflexivity|discriminate].
Qed.
Print Assumptions C72_refuted_nonempty.

(** A case for the theorems: four points, two triangles. *)
Definition four_points : list pt := [(0, 0); (1, 0); (0, 1); (2, 2)].
Example C71_nonvacuous : exists out idx, delaunay_triangulation Rnum four_points = Some (out, idx) /\
  In (0, 1, 2)%nat idx /\ In (1, 2, 3)%nat idx /\ In ((0, 0), (1, 0), (0, 1)) out /\ In ((1, 0), (0, 1), (2, 2)) out.
Proof.
  destruct (delaunay_total four_points ltac:(discriminate)) as (out & idx & H & s1 & s2 & s3 & Haux). exists out, idx. split; [exact H|].
  assert (exists r, 2.7 <= r /\ s1 = (3/4, 3/4 + 2 * r) /\ s2 = (3/4 + sqrt 3 * r, 3/4 - r) /\ s3 = (3/4 - sqrt 3 * r, 3/4 - r)) as (r & Hr & E1 & E2 & E3).
  { destruct Haux as (r & Hr & Hmax & _ & -> & -> & ->). assert (centroid four_points = (3/4, 3/4)) as E by (unfold centroid; cbn; apply f_equal2; field).
    rewrite E in *. exists r. cbn [fst snd]. split; [|auto]. specialize (Hmax (2, 2) ltac:(cbn; auto)). unfold dist2 in Hmax. cbn [fst snd] in Hmax. nra. }
  destruct sqrt3 as [S0 S1]. assert (1.7 < sqrt 3) as S2 by nra. assert (4.5 < sqrt 3 * r) as S3 by nra.
  assert (forall a b c o q, ~ collinear a b c -> circumcentre o a b c -> dist2 o a < dist2 o q -> ~ in_closed_circle a b c q) as Hout.
  { intros a b c o q Hn Ho Hlt (o' & Ho' & Hle). rewrite (centre_unique o' o a b c Hn Ho' Ho) in Hle. lra. }
  assert (~ collinear (0, 0) (1, 0) (0, 1)) as N1 by (unfold collinear, orient; cbn [fst snd]; lra).
  assert (~ collinear (1, 0) (0, 1) (2, 2)) as N2 by (unfold collinear, orient; cbn [fst snd]; lra).
  assert (circumcentre (1/2, 1/2) (0, 0) (1, 0) (0, 1)) as K1 by (unfold circumcentre, dist2; cbn [fst snd]; lra).
  assert (circumcentre (7/6, 7/6) (1, 0) (0, 1) (2, 2)) as K2 by (unfold circumcentre, dist2; cbn [fst snd]; lra).
  assert (In (0, 1, 2)%nat idx /\ In ((0, 0), (1, 0), (0, 1)) out) as [A1 A2].
  { apply (C71_complete four_points s1 s2 s3 out idx 0 1 2 _ _ _ H Haux ltac:(lia) ltac:(lia) eq_refl eq_refl eq_refl N1).
    - intros [|[|[|[|l]]]] q Hq L0 L1 L2; try lia; [|destruct l; discriminate]. cbn in Hq. injection Hq as <-.
      apply (Hout _ _ _ _ _ N1 K1). unfold dist2. cbn [fst snd]. lra.
    - apply (Hout _ _ _ _ _ N1 K1). rewrite E1. unfold dist2. cbn [fst snd]. nra.
    - apply (Hout _ _ _ _ _ N1 K1). rewrite E2. unfold dist2. cbn [fst snd]. nra.
    - apply (Hout _ _ _ _ _ N1 K1). rewrite E3. unfold dist2. cbn [fst snd]. nra. }
  assert (In (1, 2, 3)%nat idx /\ In ((1, 0), (0, 1), (2, 2)) out) as [B1 B2].
  { apply (C71_complete four_points s1 s2 s3 out idx 1 2 3 _ _ _ H Haux ltac:(lia) ltac:(lia) eq_refl eq_refl eq_refl N2).
    - intros [|[|[|[|l]]]] q Hq L0 L1 L2; try lia; [|destruct l; discriminate]. cbn in Hq. injection Hq as <-.
      apply (Hout _ _ _ _ _ N2 K2). unfold dist2. cbn [fst snd]. lra.
    - apply (Hout _ _ _ _ _ N2 K2). rewrite E1. unfold dist2. cbn [fst snd]. nra.
    - apply (Hout _ _ _ _ _ N2 K2). rewrite E2. unfold dist2. cbn [fst snd]. nra.
    - apply (Hout _ _ _ _ _ N2 K2). rewrite E3. unfold dist2. cbn [fst snd]. nra. }
  auto.
Qed.

(** The hypotheses of C58 hold for the reals. *)
Example C58_nonvacuous : four_points <> [] /\
  (forall c p q, In p four_points -> In q four_points -> ncmp Rnum (two_norm Rnum (v_sub Rnum p c)) (two_norm Rnum (v_sub Rnum q c)) <> None).
Proof. split; [discriminate|]. intros c p q _ _. cbn. discriminate. Qed.
