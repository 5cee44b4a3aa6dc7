(** Rounding errors of square roots, sums and maxima of [f64]. *)
From Coq Require Import ZArith Reals Lra Lia List Arith Bool.
From Flocq Require Import Core Relative IEEE754.BinarySingleNaN.
From Verif Require Import PidModel MatModel MatSpec MatProofs NumModel NumSpec RankModel LuModel FloatModel FloatSpec FloatProofs FloatProofs2 FloatProofs3 FloatProofs5 NormFloatModel.
Import ListNotations.
Open Scope R_scope.

(** ** Square roots *)
Lemma fin_neg (x : binary64) : finite x -> val x < 0 -> exists m e H, x = B754_finite true m e H.
Proof.
  unfold finite, val. destruct x as [s|s| |s m e H]; cbn; intros F N; try discriminate; [exfalso; exact (Rlt_irrefl 0 N)|]. destruct s; [now exists m, e, H|]. exfalso.
  assert (0 < F2R (Float radix2 (Zpos m) e)) by now apply F2R_gt_0. cbn in *. lra.
Qed.
Lemma sqrt_fin x : finite (f_sqrt x) -> finite x /\ 0 <= val x.
Proof.
  unfold finite, f_sqrt. rewrite (proj1 (proj2 (Bsqrt_correct 53 1024 _ _ mode_NE x))). destruct x as [s|s| |s m e H]; try discriminate.
  - intros _. split; [reflexivity|]. apply Rle_refl.
  - destruct s; [discriminate|]. intros _. split; [reflexivity|]. unfold val. cbn. apply Rlt_le. now apply F2R_gt_0.
Qed.
Lemma sqrt_ok x : finite x -> 0 <= val x -> finite (f_sqrt x).
Proof.
  intros F P. unfold finite, f_sqrt. rewrite (proj1 (proj2 (Bsqrt_correct 53 1024 _ _ mode_NE x))). unfold finite in F. destruct x as [s|s| |s m e H]; try discriminate; [reflexivity|]. destruct s; [|reflexivity].
  exfalso. unfold val in P. cbn in P. assert (F2R (Float radix2 (Zneg m) e) < 0) by now apply F2R_lt_0. lra.
Qed.
Lemma sqrt_err x : finite (f_sqrt x) -> Rabs (val (f_sqrt x) - sqrt (val x)) <= uro * sqrt (val x).
Proof.
  intros F. destruct (sqrt_fin x F) as [Fx P]. unfold val at 1, f_sqrt. rewrite (proj1 (Bsqrt_correct 53 1024 _ _ mode_NE x)). fold (val x).
  destruct (Rle_lt_or_eq_dec 0 (val x) P) as [Q|Q]; [|rewrite <- Q, sqrt_0, round_0 by typeclasses eauto; rewrite Rminus_0_r, Rabs_R0; lra].
  assert (L : bpow radix2 (-1074) <= val x) by (apply (generic_format_ge_bpow radix2 (FLT_exp (-1074) 53)); [intros e; unfold FLT_exp; lia|exact Q|apply val_format]).
  assert (L2 : bpow radix2 (-537) <= sqrt (val x)). { replace (bpow radix2 (-537)) with (sqrt (bpow radix2 (-1074))); [now apply sqrt_le_1_alt|]. replace (-1074)%Z with (-537 + -537)%Z by reflexivity. rewrite bpow_plus. apply sqrt_square, bpow_ge_0. }
  pose proof (sqrt_pos (val x)) as S0. rewrite fex_flt. change (round_mode mode_NE) with (Znearest (fun z => negb (Z.even z))).
  pose proof (relative_error_N_FLT radix2 (-1074) 53 ltac:(lia) (fun z => negb (Z.even z)) (sqrt (val x))) as H. rewrite uro_eq in H. rewrite (Rabs_pos_eq (sqrt (val x)) S0) in H. apply H.
  apply Rle_trans with (bpow radix2 (-537)); [apply bpow_le; lia|exact L2].
Qed.
(** A square root of a number near [B]. *)
Lemma sqrt_near a B g e : 0 <= a -> 0 <= B -> 0 <= g -> 0 <= e -> Rabs (a - B) <= g * B + e -> Rabs (sqrt a - sqrt B) <= g * sqrt B + sqrt e.
Proof.
  intros Pa PB Pg Pe H. apply Rabs_le_inv in H. pose proof (sqrt_pos a). pose proof (sqrt_pos B). pose proof (sqrt_pos e). assert (Ea := sqrt_sqrt a Pa). assert (EB := sqrt_sqrt B PB). assert (Ee := sqrt_sqrt e Pe).
  set (x := sqrt a) in *. set (y := sqrt B) in *. set (z := sqrt e) in *. assert (GY : 0 <= g * y) by now apply Rmult_le_pos. apply Rabs_le. split.
  - destruct (Rle_or_lt (y - x) (g * y + z)) as [Q|Q]; [lra|]. exfalso. assert (Z : z < y) by lra. assert (Z2 : z * z <= z * y) by (apply Rmult_le_compat_l; lra).
    assert (D1 : (g * y + z) * y < (y - x) * y) by (apply Rmult_lt_compat_r; lra). assert (D2 : 0 <= (y - x) * x) by (apply Rmult_le_pos; lra). nra.
  - destruct (Rle_or_lt (x - y) (g * y + z)) as [Q|Q]; [lra|]. exfalso.
    assert (D1 : (g * y + z) * (y + z) <= (x - y) * (y + z)) by (apply Rmult_le_compat_r; lra). assert (D2 : (x - y) * (y + z) < (x - y) * (x + y)) by (apply Rmult_lt_compat_l; lra).
    assert (D3 : 0 <= g * y * z) by (apply Rmult_le_pos; lra). assert (D4 : 0 <= z * y) by (apply Rmult_le_pos; lra). nra.
Qed.
Lemma root_err s B k e : finite (f_sqrt s) -> 0 <= B -> 0 <= e -> Rabs (val s - B) <= gam k * B + e -> Rabs (val (f_sqrt s) - sqrt B) <= gam (k + 1) * sqrt B + (1 + uro) * sqrt e.
Proof.
  intros F PB Pe H. destruct (sqrt_fin s F) as [_ P]. pose proof (sqrt_near (val s) B (gam k) e P PB (gam_pos k) Pe H) as N. pose proof (sqrt_err s F) as E. pose proof uro_pos as U.
  rewrite Nat.add_1_r, gam_S. pose proof (sqrt_pos B) as SB. pose proof (sqrt_pos e) as Se. pose proof (gam_pos k) as G.
  assert (A : sqrt (val s) <= (1 + gam k) * sqrt B + sqrt e) by (apply Rabs_le_inv in N; lra).
  replace (val (f_sqrt s) - sqrt B) with ((val (f_sqrt s) - sqrt (val s)) + (sqrt (val s) - sqrt B)) by ring. eapply Rle_trans; [apply Rabs_triang|].
  assert (uro * sqrt (val s) <= uro * ((1 + gam k) * sqrt B + sqrt e)) by (apply Rmult_le_compat_l; lra). lra.
Qed.

(** ** Sums of any numbers *)
Lemma sum_err n (x : nat -> binary64) : finite (sum n x) -> (forall l, (l < n)%nat -> finite (x l)) /\
  Rabs (val (sum n x) - sum n (fun l => val (x l))) <= gam n * sum n (fun l => Rabs (val (x l))).
Proof.
  induction n as [|n IH]; intros F.
  - split; [lia|]. cbn [sum]. change (@t0 R ops_R) with 0. change (val (@t0 binary64 ops_f64)) with 0. rewrite Rminus_0_r, Rabs_R0. lra.
  - cbn [sum] in F. change (finite (f_add (sum n x) (x n))) in F. rewrite !rsum_S. change (sum (S n) x) with (f_add (sum n x) (x n)).
    destruct (add_err _ _ F) as (Fs & Fx & _ & EA). destruct (IH Fs) as (FF & EI). split; [intros l Hl; destruct (Nat.eq_dec l n) as [->|]; [exact Fx|apply FF; lia]|].
    set (s := sum n x) in *. set (T := sum n (fun l => val (x l))) in *. set (P := sum n (fun l => Rabs (val (x l)))) in *. assert (HT : Rabs T <= P) by apply rsum_abs. pose proof uro_pos. pose proof (gam_pos n). pose proof (Rabs_pos (val (x n))). assert (0 <= P) by (pose proof (Rabs_pos T); lra).
    assert (A : Rabs (val s + val (x n)) <= P + gam n * P + Rabs (val (x n))) by (eapply Rle_trans; [apply Rabs_triang|]; pose proof (abs_le_add (val s) T); lra).
    rewrite gam_S. replace (val (f_add s (x n)) - (T + val (x n))) with ((val (f_add s (x n)) - (val s + val (x n))) + (val s - T)) by ring. eapply Rle_trans; [apply Rabs_triang|].
    assert (uro * Rabs (val s + val (x n)) <= uro * (P + gam n * P + Rabs (val (x n)))) by (apply Rmult_le_compat_l; lra). assert (0 <= (1 + uro) * gam n * Rabs (val (x n))) by (repeat apply Rmult_le_pos; lra). lra.
Qed.
Lemma abs_val x : val (f_abs x) = Rabs (val x). Proof. apply B2R_Babs. Qed.
Lemma abs_fin x : finite (f_abs x) <-> finite x. Proof. unfold finite, f_abs. now rewrite is_finite_Babs. Qed.
Lemma mul_self_pos x : 0 <= val (f_mul x x).
Proof.
  destruct (is_finite (f_mul x x)) eqn:F.
  - rewrite (mul_rnd x x F). apply round_ge_generic; [typeclasses eauto|typeclasses eauto|apply generic_format_0|]. apply Rle_0_sqr.
  - unfold val. destruct (f_mul x x); try discriminate F; apply Rle_refl.
Qed.
Lemma sum_pos n (x : nat -> binary64) : finite (sum n x) -> (forall l, (l < n)%nat -> 0 <= val (x l)) -> 0 <= val (sum n x).
Proof.
  induction n as [|n IH]; intros F P; [apply Rle_refl|]. cbn [sum] in F |- *. change (finite (f_add (sum n x) (x n))) in F. change (0 <= val (f_add (sum n x) (x n))). rewrite (add_rnd _ _ F).
  apply round_ge_generic; [typeclasses eauto|typeclasses eauto|apply generic_format_0|]. destruct (add_fin _ _ F) as [Fs _]. pose proof (IH Fs ltac:(intros; apply P; lia)). pose proof (P n ltac:(lia)). lra.
Qed.

(** ** Numbers that are not negative and not not-a-number *)
Definition upper (x : binary64) : Prop := is_nan x = false /\ Bsign x = false.
Lemma upper_abs x : is_nan x = false -> upper (f_abs x).
Proof. intros H. unfold upper, f_abs. now destruct x. Qed.
Lemma upper_cases x : upper x -> (finite x /\ 0 <= val x) \/ x = B754_infinity false.
Proof.
  intros [N S1]. destruct x as [s|s| |s m e H]; try discriminate.
  - left. split; [reflexivity|apply Rle_refl].
  - right. cbn in S1. now subst s.
  - left. split; [reflexivity|]. cbn in S1. subst s. unfold val. cbn. apply Rlt_le. now apply F2R_gt_0.
Qed.
Lemma upper_add x y : upper x -> upper y -> upper (f_add x y).
Proof.
  intros Hx Hy. destruct (upper_cases x Hx) as [[Fx Px]| ->].
  - destruct (upper_cases y Hy) as [[Fy Py]| ->]; [|destruct x as [s|s| |s m e H]; try discriminate Fx; split; reflexivity].
    pose proof (Bplus_correct 53 1024 _ _ mode_NE x y Fx Fy) as H. fold (val x) (val y) in H. unfold upper, f_add. destruct (Rlt_bool _ _) in H.
    + destruct H as (_ & F & SG). split; [destruct (Bplus mode_NE x y); try discriminate F; reflexivity|]. rewrite SG. destruct (Rcompare_spec (val x + val y) 0) as [K|K|K]; [lra|now rewrite (proj2 Hx), (proj2 Hy)|reflexivity].
    + destruct H as (H & _). rewrite (proj2 Hx), overflow_inf in H. destruct (Bplus mode_NE x y); try discriminate H. cbn in H. injection H as ->. split; reflexivity.
  - destruct (upper_cases y Hy) as [[Fy Py]| ->]; [destruct y as [s|s| |s m e H]; try discriminate Fy; split; reflexivity|split; reflexivity].
Qed.
Lemma upper_sum n (x : nat -> binary64) : (forall l, (l < n)%nat -> upper (x l)) -> upper (sum n x).
Proof. induction n as [|n IH]; intros H; [split; reflexivity|]. cbn [sum]. apply upper_add; [apply IH; intros; apply H; lia|apply H; lia]. Qed.
Lemma leb_inf_l y : f_leb (B754_infinity false) y = true -> y = B754_infinity false.
Proof. unfold f_leb, Bleb. destruct y as [s|[|]| |[|] m e H]; cbn; try discriminate. reflexivity. Qed.
Lemma leb_inf_r x : finite x -> f_leb x (B754_infinity false) = true.
Proof. unfold f_leb, Bleb, finite. destruct x as [s|s| |[|] m e H]; cbn; try discriminate; reflexivity. Qed.
Lemma rleb_iff x y : rleb x y = Rle_bool x y.
Proof. unfold rleb. destruct (Rle_dec x y) as [K|K]; symmetry; [now apply Rle_bool_true|apply Rle_bool_false; lra]. Qed.
Lemma fold_max_fin l : forall acc, upper acc -> (forall x, In x l -> upper x) -> finite (fold_left (fun mx v => if f_leb mx v then v else mx) l acc) ->
  finite acc /\ (forall x, In x l -> finite x) /\
  val (fold_left (fun mx v => if f_leb mx v then v else mx) l acc) = fold_left (fun mx v => if rleb mx v then v else mx) (map val l) (val acc).
Proof.
  induction l as [|v l IH]; intros acc HA HL F; [split; [exact F|]; split; [intros x []|reflexivity]|]. cbn [fold_left map] in *.
  assert (HA' : upper (if f_leb acc v then v else acc)) by (destruct (f_leb acc v); [apply HL; now left|exact HA]).
  destruct (IH _ HA' ltac:(intros; apply HL; now right) F) as (F1 & F2 & E).
  assert (Facc : finite acc). { destruct (upper_cases acc HA) as [[K _]| ->]; [exact K|]. destruct (f_leb (B754_infinity false) v) eqn:Q; [|discriminate F1]. apply leb_inf_l in Q. subst v. discriminate F1. }
  assert (Fv : finite v). { destruct (upper_cases v (HL v ltac:(now left))) as [[K _]| ->]; [exact K|]. rewrite leb_inf_r in F1 by exact Facc. discriminate F1. }
  split; [exact Facc|]. split; [intros x [<-|Hx]; [exact Fv|now apply F2]|]. rewrite E. f_equal. unfold f_leb. rewrite (Bleb_correct 53 1024 acc v Facc Fv), rleb_iff. fold (val acc) (val v). now destruct (Rle_bool (val acc) (val v)).
Qed.
