(** Properties C124 and C125: the circle test and the triangulation with the rounding of [f64]. *)
From Coq Require Import ZArith Reals Lra Lia List Arith Bool.
From Flocq Require Import Core IEEE754.BinarySingleNaN.
From Verif Require Import PidModel GeomModel GeomSpec GeomProofs GeomProofs2 GeomProofs3 GeomProofs4 GeomProofs5 GeomProofs6 GeomProofs7 GeomProofs8 GeomProps FloatModel FloatSpec FloatProofs FloatProofs3 FloatProofs5 GeomFloatModel GeomFloatProofs GeomFloatProofs2 GeomFloatProofs3.
Import ListNotations.
Open Scope R_scope.

(** C124.  On at most 2^23 points with finite coordinates of size at most 2^500 the triangulation returns, and its result has the form of C58. *)
Theorem C124_returns : forall points : list (vec Fnum), points <> [] -> (Z.of_nat (length points) <= 2 ^ 23)%Z ->
  (forall x y, In (x, y) points -> finite x /\ finite y /\ Rabs (val x) <= 2 ^ 500 /\ Rabs (val y) <= 2 ^ 500) ->
  exists out idx, delaunay_triangulation Fnum points = Some (out, idx) /\ NoDup idx /\ Forall2 (has_points points) out idx /\
    forall a b c, In (a, b, c) idx -> (a < b /\ b < c /\ c < length points)%nat /\
      forall j A B C p, (c < j)%nat -> nth_error points a = Some A -> nth_error points b = Some B -> nth_error points c = Some C ->
        nth_error points j = Some p -> circum_circle_contains Fnum (A, B, C) p = false.
Proof.
  intros points Hne Hlen H. apply C58_indices; [exact Hne|]. intros c p q -> Hp Hq.
  assert (M : forall x y, In (x, y) points -> mod500 x /\ mod500 y).
  { intros x y K. destruct (H x y K) as (F1 & F2 & B1 & B2). assert (P : bpow radix2 500 = 2 ^ 500) by (rewrite bpow_powerRZ, pow_powerRZ; reflexivity). unfold mod500. rewrite P. auto. }
  set (s := fold_left (v_add Fnum) points (v_zero Fnum)). destruct (fold_fst points (v_zero Fnum)) as (E1 & E2). fold s in E1, E2. cbn [v_zero fst snd n0 Fnum] in E1, E2.
  assert (C1 : mod500 (fst (v_div Fnum s (nof Fnum (length points))))).
  { unfold v_div. cbn [fst ndiv nof Fnum]. rewrite E1. assert (LL : length points = length (map fst points)) by (symmetry; apply map_length). rewrite LL in *. apply mean_ok; [destruct points; [easy|discriminate]|exact Hlen|]. intros x Hx. apply in_map_iff in Hx. destruct Hx as ([x' y'] & <- & K). now apply (M x' y'). }
  assert (C2 : mod500 (snd (v_div Fnum s (nof Fnum (length points))))).
  { unfold v_div. cbn [snd ndiv nof Fnum]. rewrite E2. assert (LL : length points = length (map snd points)) by (symmetry; apply map_length). rewrite LL in *. apply mean_ok; [destruct points; [easy|discriminate]|exact Hlen|]. intros x Hx. apply in_map_iff in Hx. destruct Hx as ([x' y'] & <- & K). now apply (M x' y'). }
  destruct (v_div Fnum s (nof Fnum (length points))) as [cx cy]. cbn [fst snd] in C1, C2. destruct p as [px py], q as [qx qy]. destruct (M px py Hp), (M qx qy Hq). apply cmp_fin; now apply dist_fin.
Qed.
Print Assumptions C124_returns.
(** A coordinate that is not finite makes the call panic as soon as there are two points. *)
Theorem C124_nonfinite_panics : forall (points : list (vec Fnum)) x y, (2 <= length points)%nat -> (Z.of_nat (length points) <= 2 ^ 23)%Z ->
  In (x, y) points -> ~ finite x \/ ~ finite y -> delaunay_triangulation Fnum points = None.
Proof.
  intros points x y Hlen Hmax Hin HN. unfold delaunay_triangulation. enough (original_points Fnum points = None) as -> by reflexivity. unfold original_points. enough (max_by Fnum (map (fun p => two_norm Fnum (v_sub Fnum p (v_div Fnum (fold_left (v_add Fnum) points (v_zero Fnum)) (nof Fnum (length points))))) points) = None) as -> by reflexivity.
  set (s := fold_left (v_add Fnum) points (v_zero Fnum)). destruct (fold_fst points (v_zero Fnum)) as (E1 & E2). fold s in E1, E2. cbn [v_zero fst snd n0 Fnum] in E1, E2.
  assert (MB : forall l : list binary64, (2 <= length l)%nat -> In B754_nan l -> max_by Fnum l = None).
  { assert (OF : forall (l : list binary64) m, In B754_nan l -> ofold (max_step Fnum) l m = None).
    { induction l as [|z l IH]; intros m Hl; [destruct Hl|]. cbn [ofold]. destruct Hl as [->|Hl]; [unfold max_step; cbn [ncmp Fnum]; destruct m as [?|[]| |[] ? ? ?]; reflexivity|]. destruct (max_step Fnum m z) as [m'|]; [cbn [obind]; now apply IH|reflexivity]. }
    intros [|z l] Hl Hz; [cbn in Hl; lia|]. cbn [max_by]. destruct Hz as [->|Hz]; [|now apply OF]. destruct l as [|w l]; [cbn in Hl; lia|]. cbn [ofold]. unfold max_step at 1. reflexivity. }
  apply MB; [now rewrite map_length|]. apply in_map_iff. exists (x, y). split; [|exact Hin].
  destruct (nof_ok (length points) Hmax) as (Fn & En). assert (PN : 0 < val (f_of_Z (Z.of_nat (length points)))) by (rewrite En; apply lt_0_INR; lia).
  assert (AX : forall (l : list binary64) z a, ~ finite z -> In z l -> let r := fold_left f_add l a in r = z \/ r = B754_nan).
  { assert (AD : forall z a, ~ finite z -> (f_add a z = z \/ f_add a z = B754_nan) /\ (f_add z a = z \/ f_add z a = B754_nan)).
    { intros z a Hz. unfold finite in Hz. destruct z as [sz|sz| |sz mz ez Hz']; try (exfalso; apply Hz; reflexivity); split; destruct a as [sa|sa| |sa ma ea Ha]; try (left; reflexivity); try (right; reflexivity); destruct sz, sa; try (left; reflexivity); right; reflexivity. }
    assert (KEEP : forall (l : list binary64) z a, ~ finite z -> a = z \/ a = B754_nan -> fold_left f_add l a = z \/ fold_left f_add l a = B754_nan).
    { induction l as [|b l IH]; intros z a Hz Ha; [exact Ha|]. cbn [fold_left]. apply IH; [exact Hz|]. destruct Ha as [-> | ->]; [now apply AD|]. right. destruct b; reflexivity. }
    induction l as [|b l IH]; intros z a Hz Hl; [destruct Hl|]. cbn zeta. cbn [fold_left]. destruct Hl as [->|Hl]; [|now apply IH]. apply KEEP; [exact Hz|now apply AD]. }
  assert (DV : forall z r, ~ finite z -> r = z \/ r = B754_nan -> f_sub z (f_div r (f_of_Z (Z.of_nat (length points)))) = B754_nan).
  { intros z r Hz Hr. set (n := f_of_Z (Z.of_nat (length points))) in *. assert (DQ : f_div r n = z \/ f_div r n = B754_nan).
    { destruct n as [sn|sn| |sn mn en Hn']; try discriminate Fn; [cbn in PN; lra|]. destruct sn; [exfalso; cbn in PN; assert (F2R (Float radix2 (Zneg mn) en) < 0) by (apply F2R_lt_0; reflexivity); lra|]. destruct Hr as [-> | ->]; [|right; reflexivity].
      destruct z as [sz|sz| |sz mz ez Hz']; try (exfalso; apply Hz; reflexivity); [left; destruct sz; reflexivity|right; reflexivity]. }
    destruct DQ as [-> | ->].
    - destruct z as [sz|sz| |sz mz ez Hz']; try (exfalso; apply Hz; reflexivity); [destruct sz; reflexivity|reflexivity].
    - destruct z; reflexivity. }
  assert (NX : forall a : binary64, f_add a B754_nan = B754_nan) by (intros []; reflexivity).
  unfold two_norm, v_sub, v_div. cbn [fst snd nsqrt nadd nmul n0 ndiv nsub nof Fnum]. rewrite E1, E2. destruct HN as [HN|HN].
  - assert (IM : In x (map fst points)) by (apply in_map_iff; exists (x, y); auto). match goal with |- context [f_sub x ?d] => assert (f_sub x d = B754_nan) as -> by (exact (DV x _ HN (AX (map fst points) x f_zero HN IM))) end. reflexivity.
  - assert (IM : In y (map snd points)) by (apply in_map_iff; exists (x, y); auto). match goal with |- context [f_sub y ?d] => assert (f_sub y d = B754_nan) as -> by (exact (DV y _ HN (AX (map snd points) y f_zero HN IM))) end. change (f_mul B754_nan B754_nan) with (B754_nan (prec := 53) (emax := 1024)). rewrite NX. reflexivity.
Qed.
Print Assumptions C124_nonfinite_panics.
(** The first vertex is never inside, whatever the numbers are. *)
Theorem C124_first_vertex : forall a b c : vec Fnum, circum_circle_contains Fnum (a, b, c) a = false.
Proof. intros a b c. unfold circum_circle_contains. cbv zeta. unfold sphere_contains. cbn [nltb Fnum]. apply ltb_irrefl. Qed.
Print Assumptions C124_first_vertex.

(** Points with integer coordinates, as [f64] and as points of the plane. *)
Definition fpt (p : Z * Z) : vec Fnum := (f_of_Z (fst p), f_of_Z (snd p)).
Definition rpt (p : Z * Z) : pt := (IZR (fst p), IZR (snd p)).
Definition small (p : Z * Z) : Prop := (Z.abs (fst p) <= 64 /\ Z.abs (snd p) <= 64)%Z.
Theorem C125_points : forall p, small p -> finite (fst (fpt p)) /\ finite (snd (fpt p)) /\ (val (fst (fpt p)), val (snd (fpt p))) = rpt p.
Proof. intros [x y] (H1 & H2). cbn [fst snd] in *. destruct (f_of_Z_ok x ltac:(lia)) as (F1 & E1), (f_of_Z_ok y ltac:(lia)) as (F2 & E2). unfold fpt, rpt. cbn [fst snd]. rewrite half_even in E1, E2. rewrite E1, E2. auto. Qed.
(** C125.  For integer coordinates up to 64 the rounded circle test is right for every point that is not on the circle. *)
Theorem C125_small_integers : forall a b c p o, small a -> small b -> small c -> small p -> ~ collinear (rpt a) (rpt b) (rpt c) -> circumcentre o (rpt a) (rpt b) (rpt c) ->
  (dist2 o (rpt p) < dist2 o (rpt a) -> circum_circle_contains Fnum (fpt a, fpt b, fpt c) (fpt p) = true) /\
  (dist2 o (rpt a) < dist2 o (rpt p) -> circum_circle_contains Fnum (fpt a, fpt b, fpt c) (fpt p) = false).
Proof.
  intros [x0 y0] [x1 y1] [x2 y2] [px py] o Ha Hb Hc (Hpx & Hpy) HN HO. unfold fpt, rpt, small in *. cbn [fst snd] in *.
  assert (HD : zdet x0 y0 x1 y1 x2 y2 <> 0%Z). { intros K. apply HN. unfold collinear, orient. cbn [fst snd]. apply (f_equal IZR) in K. unfold zdet in K. rewrite !minus_IZR, !mult_IZR, !minus_IZR in K. lra. }
  assert (C : circumcentre (ex_o x0 y0 x1 y1 x2 y2) (IZR x0, IZR y0) (IZR x1, IZR y1) (IZR x2, IZR y2)).
  { assert (N : IZR (zdet x0 y0 x1 y1 x2 y2) <> 0) by (now apply not_0_IZR). unfold circumcentre, dist2, ex_o, ex_t. cbn [fst snd]. unfold zdet in *. rewrite !minus_IZR, !mult_IZR, !minus_IZR in *. split; field; exact N. }
  assert (EO : o = ex_o x0 y0 x1 y1 x2 y2) by (apply (centre_unique o _ _ _ _ HN HO C)). subst o.
  assert (SY : forall q, dist2 (ex_o x0 y0 x1 y1 x2 y2) q = dist2 q (ex_o x0 y0 x1 y1 x2 y2)) by (intros q; unfold dist2; ring). rewrite !SY. apply small_test; assumption.
Qed.
Print Assumptions C125_small_integers.
(** Points on one line: nothing is inside. *)
Theorem C125_flat : forall a b c p, small a -> small b -> small c -> collinear (rpt a) (rpt b) (rpt c) -> circum_circle_contains Fnum (fpt a, fpt b, fpt c) p = false.
Proof.
  intros [x0 y0] [x1 y1] [x2 y2] p Ha Hb Hc HN. unfold fpt, rpt, small in *. cbn [fst snd] in *. destruct (det_ok x0 y0 x1 y1 x2 y2 Ha Hb Hc) as (F & E).
  assert (K : zdet x0 y0 x1 y1 x2 y2 = 0%Z). { apply eq_IZR. unfold collinear, orient in HN. cbn [fst snd] in HN. unfold zdet. rewrite !minus_IZR, !mult_IZR, !minus_IZR. lra. }
  rewrite K in E. unfold half in E. change (2 * 0)%Z with 0%Z in E. replace (0 / 2) with 0 in E by field.
  assert (exists s, fl_det x0 y0 x1 y1 x2 y2 = B754_zero s) as (s & Z).
  { destruct (fl_det x0 y0 x1 y1 x2 y2) as [s|s| |s m e B]; try discriminate F; [eauto|]. exfalso. unfold val in E. cbn in E. apply (F2R_neq_0 radix2 (Float radix2 (SpecFloat.cond_Zopp s (Zpos m)) e)); [|exact E]. cbn. now destruct s. }
  apply (degenerate _ _ _ _ s). exact Z.
Qed.
Print Assumptions C125_flat.
(** For integer points the triangles of the result contain no later point in their circle. *)
Theorem C125_later_points_partial : forall (points : list (Z * Z)) out idx a b c A B C j p, Forall small points -> (Z.of_nat (length points) <= 2 ^ 23)%Z ->
  delaunay_triangulation Fnum (map fpt points) = Some (out, idx) -> In (a, b, c) idx -> nth_error points a = Some A -> nth_error points b = Some B -> nth_error points c = Some C ->
  (c < j)%nat -> nth_error points j = Some p -> ~ collinear (rpt A) (rpt B) (rpt C) -> ~ in_circle (rpt A) (rpt B) (rpt C) (rpt p).
Proof.
  intros points out idx a b c A B C j p HS Hlen E Hin HA HB HC Hj Hp HN (o & HO & HL).
  assert (SM : forall i q, nth_error points i = Some q -> small q) by (intros i q K; rewrite Forall_forall in HS; apply HS; eapply nth_error_In; exact K).
  destruct (C124_returns (map fpt points)) as (out' & idx' & E' & _ & _ & G); [destruct points; [destruct a; discriminate HA|discriminate]|now rewrite map_length| |].
  - intros x y K. apply in_map_iff in K. destruct K as (q & Eq & K). rewrite Forall_forall in HS. pose proof (HS q K) as Q. destruct (C125_points q Q) as (F1 & F2 & V). unfold fpt in *. cbn [fst snd] in *. injection Eq as <- <-. injection V as V1 V2. rewrite V1, V2. destruct Q as (Q1 & Q2).
    assert (L : forall z, (Z.abs z <= 64)%Z -> Rabs (IZR z) <= 2 ^ 500) by (intros z Hz; apply Rle_trans with (2 ^ 6); [replace (2 ^ 6) with 64 by lra; now apply abs_IZR_le|apply Rle_pow; [lra|lia]]). auto.
  - rewrite E in E'. injection E' as <- <-. destruct (G a b c Hin) as (_ & G').
    assert (MP : forall i q, nth_error points i = Some q -> nth_error (map fpt points) i = Some (fpt q)) by (intros i q K; now apply map_nth_error).
    pose proof (G' j _ _ _ _ Hj (MP _ _ HA) (MP _ _ HB) (MP _ _ HC) (MP _ _ Hp)) as T.
    destruct (C125_small_integers A B C p o (SM _ _ HA) (SM _ _ HB) (SM _ _ HC) (SM _ _ Hp) HN HO) as (K & _). rewrite K in T by exact HL. discriminate T.
Qed.
Print Assumptions C125_later_points_partial.

(** With the rounding of [f64] the triangles of the result can overlap, which they never do in exact arithmetic (C70): five integer points on a circle. *)
Definition C125_claim : Prop := forall (points : list (Z * Z)) out idx i j a b c a' b' c' A B C A' B' C' x, Forall small points ->
  delaunay_triangulation Fnum (map fpt points) = Some (out, idx) -> nth_error idx i = Some (a, b, c) -> nth_error idx j = Some (a', b', c') ->
  nth_error points a = Some A -> nth_error points b = Some B -> nth_error points c = Some C -> nth_error points a' = Some A' -> nth_error points b' = Some B' -> nth_error points c' = Some C' ->
  in_triangle (rpt A) (rpt B) (rpt C) x -> in_triangle (rpt A') (rpt B') (rpt C') x -> i = j.
Definition five : list (Z * Z) := [(4, 1); (3, 4); (0, 3); (1, 0); (3, 0)]%Z.
Theorem C125_overlap_refuted : ~ C125_claim /\
  (exists out, delaunay_triangulation Fnum (map fpt five) = Some (out, [(0, 1, 3); (0, 3, 4); (1, 2, 4); (1, 3, 4); (2, 3, 4)]%nat)).
Proof.
  assert (E : match delaunay_triangulation Fnum (map fpt five) with Some (_, idx) => idx | None => [] end = [(0, 1, 3); (0, 3, 4); (1, 2, 4); (1, 3, 4); (2, 3, 4)]%nat) by (vm_compute; reflexivity).
  destruct (delaunay_triangulation Fnum (map fpt five)) as [[out idx]|] eqn:D; [|discriminate E]. subst idx. split; [|exists out; reflexivity].
  intros H. specialize (H five out [(0, 1, 3); (0, 3, 4); (1, 2, 4); (1, 3, 4); (2, 3, 4)]%nat 0%nat 2%nat 0%nat 1%nat 3%nat 1%nat 2%nat 4%nat (4, 1)%Z (3, 4)%Z (1, 0)%Z (3, 4)%Z (0, 3)%Z (3, 0)%Z (5 / 2, 5 / 2)). assert (Q : 0%nat = 2%nat); [|discriminate Q]. apply H; try reflexivity; clear H.
  - repeat constructor; cbn; lia.
  - exact D.
  - exists (1 / 10), (3 / 5), (3 / 10). unfold rpt. cbn [fst snd]. repeat split; lra.
  - exists (1 / 2), (1 / 6), (1 / 3). unfold rpt. cbn [fst snd]. repeat split; lra.
Qed.
Print Assumptions C125_overlap_refuted.
Example C125_example : small (4, 1)%Z /\ ~ collinear (rpt (4, 1)%Z) (rpt (3, 4)%Z) (rpt (1, 0)%Z) /\ circumcentre (2, 2) (rpt (4, 1)%Z) (rpt (3, 4)%Z) (rpt (1, 0)%Z) /\
  dist2 (2, 2) (rpt (2, 0)%Z) < dist2 (2, 2) (rpt (4, 1)%Z) /\ circum_circle_contains Fnum (fpt (4, 1)%Z, fpt (3, 4)%Z, fpt (1, 0)%Z) (fpt (2, 0)%Z) = true.
Proof. refine (conj _ (conj _ (conj (conj _ _) (conj _ _)))); try (vm_compute; reflexivity); unfold small, collinear, orient, circumcentre, dist2, rpt; cbn [fst snd]; try lra. lia. Qed.
Print Assumptions C125_points.
