(** The circle test and the triangulation at [f64]: totality and degenerate triangles. *)
From Coq Require Import ZArith Reals Lra Lia List Arith Bool.
From Flocq Require Import Core Relative Plus_error IEEE754.BinarySingleNaN.
From Verif Require Import PidModel GeomModel FloatModel FloatSpec FloatProofs FloatProofs3 FloatProofs5 GeomFloatModel GeomFloatProofs.
Import ListNotations.
Open Scope R_scope.

(** Moderate points: the distances to the computed mean are numbers. *)
Definition mod500 (x : binary64) : Prop := finite x /\ Rabs (val x) <= bpow radix2 500.
Lemma nof_ok n : (Z.of_nat n <= 2 ^ 23)%Z -> finite (f_of_Z (Z.of_nat n)) /\ val (f_of_Z (Z.of_nat n)) = INR n.
Proof. intros H. destruct (f_of_Z_ok (Z.of_nat n) ltac:(lia)) as (F & E). split; [exact F|]. rewrite E, INR_IZR_INZ. unfold half. rewrite mult_IZR. field. Qed.
Lemma sum_ok (l : list binary64) : (Z.of_nat (length l) <= 2 ^ 23)%Z -> (forall x, In x l -> mod500 x) -> forall k s, (Z.of_nat (k + length l) <= 2 ^ 23)%Z -> finite s -> Rabs (val s) <= IZR (Z.of_nat k) * bpow radix2 500 ->
  finite (fold_left f_add l s) /\ Rabs (val (fold_left f_add l s)) <= IZR (Z.of_nat (k + length l)) * bpow radix2 500.
Proof.
  intros _. induction l as [|x l IH]; intros H k s Hk Fs Bs; [cbn; rewrite Nat.add_0_r; auto|]. cbn [fold_left]. cbn [length] in *.
  destruct (H x ltac:(now left)) as (Fx & Bx). destruct (add_ok s x (Z.of_nat (S k)) 500 Fs Fx) as (F & B).
  - eapply Rle_trans; [apply Rabs_triang|]. replace (Z.of_nat (S k)) with (Z.of_nat k + 1)%Z by lia. rewrite plus_IZR. lra.
  - lia.
  - lia.
  - apply Rle_lt_trans with (IZR (2 ^ 23) * bpow radix2 500); [apply Rmult_le_compat_r; [apply bpow_ge_0|apply IZR_le; lia]|]. change (IZR (2 ^ 23)) with (bpow radix2 23). rewrite <- bpow_plus. apply bpow_lt. lia.
  - replace (k + S (length l))%nat with (S k + length l)%nat by lia. apply IH; [intros; apply H; now right|lia|exact F|exact B].
Qed.
Lemma mean_ok (l : list binary64) : l <> [] -> (Z.of_nat (length l) <= 2 ^ 23)%Z -> (forall x, In x l -> mod500 x) -> mod500 (f_div (fold_left f_add l f_zero) (f_of_Z (Z.of_nat (length l)))).
Proof.
  intros Hl Hn H. destruct (sum_ok l Hn H 0 f_zero ltac:(lia) eq_refl) as (F & B); [rewrite val_zero, Rabs_R0; cbn; lra|]. cbn [Nat.add] in B. destruct (nof_ok (length l) Hn) as (Fn & En).
  assert (P : 0 < INR (length l)) by (apply lt_0_INR; destruct l; [easy|cbn; lia]). assert (Q : Rabs (val (fold_left f_add l f_zero) / val (f_of_Z (Z.of_nat (length l)))) <= bpow radix2 500).
  { rewrite En. unfold Rdiv. rewrite Rabs_mult, Rabs_inv, (Rabs_pos_eq (INR _)) by lra. rewrite <- INR_IZR_INZ in B. apply Rmult_le_reg_r with (INR (length l)); [exact P|]. rewrite Rmult_assoc, Rinv_l by lra. lra. }
  destruct (div_top _ (f_of_Z (Z.of_nat (length l))) F) as (G1 & G2); [rewrite En; lra|eapply Rle_trans; [exact Q|apply bpow_le; lia]|]. split; [exact G1|]. rewrite G2. rewrite fex_flt. apply abs_round_le_generic; [typeclasses eauto|typeclasses eauto|apply generic_format_bpow; unfold FLT_exp; lia|exact Q].
Qed.
Lemma two_norm_fin (x y : binary64) : finite x -> finite y -> Rabs (val x) <= bpow radix2 502 -> Rabs (val y) <= bpow radix2 502 -> finite (two_norm Fnum (x, y)).
Proof.
  intros Fx Fy Bx By. unfold two_norm. cbn [fst snd nsqrt nadd nmul n0 Fnum].
  assert (S : forall z, finite z -> Rabs (val z) <= bpow radix2 502 -> finite (f_mul z z) /\ Rabs (val (f_mul z z)) <= bpow radix2 1004).
  { intros z Fz Bz. apply mul_ok; try assumption; [|lia]. rewrite Rabs_mult. replace (bpow radix2 1004) with (bpow radix2 502 * bpow radix2 502) by (rewrite <- bpow_plus; f_equal). apply Rmult_le_compat; try apply Rabs_pos; assumption. }
  assert (P : forall z, finite (f_mul z z) -> 0 <= val (f_mul z z)). { intros z F. rewrite (mul_rnd z z F). rewrite fex_flt. apply round_ge_generic; [typeclasses eauto|typeclasses eauto|apply generic_format_0|apply Rle_0_sqr]. }
  destruct (S x Fx Bx) as (F1 & B1), (S y Fy By) as (F2 & B2). destruct (zero_add _ F1) as (F0 & E0). pose proof (P x F1). pose proof (P y F2).
  assert (F : finite (f_add (f_add f_zero (f_mul x x)) (f_mul y y))).
  { apply add_top; try assumption. rewrite E0. eapply Rle_trans; [apply Rabs_triang|]. apply Rle_trans with (2 * bpow radix2 1004); [lra|]. change 2 with (bpow radix2 1). rewrite <- bpow_plus. apply bpow_le. lia. }
  apply sqrt_ok; [exact F|]. rewrite (add_rnd _ _ F), E0. rewrite fex_flt. apply round_ge_generic; [typeclasses eauto|typeclasses eauto|apply generic_format_0|lra].
Qed.
Lemma dist_fin (px py cx cy : binary64) : mod500 px -> mod500 py -> mod500 cx -> mod500 cy -> finite (two_norm Fnum (v_sub Fnum (px, py) (cx, cy))).
Proof.
  intros (F1 & B1) (F2 & B2) (F3 & B3) (F4 & B4). unfold v_sub. cbn [fst snd nsub Fnum].
  assert (S : forall x y, finite x -> finite y -> Rabs (val x) <= bpow radix2 500 -> Rabs (val y) <= bpow radix2 500 -> finite (f_sub x y) /\ Rabs (val (f_sub x y)) <= bpow radix2 502).
  { intros x y Fx Fy Bx By. assert (Q : Rabs (val x - val y) <= bpow radix2 501) by (eapply Rle_trans; [apply Rabs_triang|]; rewrite Rabs_Ropp; replace (bpow radix2 501) with (bpow radix2 500 + bpow radix2 500) by (replace 501%Z with (500 + 1)%Z by lia; rewrite bpow_plus; change (bpow radix2 1) with 2; ring); lra).
    assert (F : finite (f_sub x y)) by (apply sub_top; try assumption; eapply Rle_trans; [exact Q|apply bpow_le; lia]). split; [exact F|]. rewrite (sub_rnd x y F), fex_flt. apply abs_round_le_generic; [typeclasses eauto|typeclasses eauto|apply generic_format_bpow; unfold FLT_exp; lia|]. eapply Rle_trans; [exact Q|apply bpow_le; lia]. }
  apply two_norm_fin; apply S; assumption.
Qed.
Lemma fold_fst (l : list (binary64 * binary64)) s : fst (fold_left (v_add Fnum) l s) = fold_left f_add (map fst l) (fst s) /\ snd (fold_left (v_add Fnum) l s) = fold_left f_add (map snd l) (snd s).
Proof. revert s. induction l as [|x l IH]; intros s; [auto|]. cbn [fold_left map]. exact (IH (v_add Fnum s x)). Qed.
Lemma cmp_fin (x y : binary64) : finite x -> finite y -> ncmp Fnum x y <> None.
Proof. intros Fx Fy. cbn. rewrite Bcompare_correct by assumption. discriminate. Qed.

(** Values that are not finite are never repaired, and never less than anything when they are norms. *)
Definition nonfin (x : binary64) : Prop := is_finite x = false.
Lemma nonfin_add x y : nonfin x \/ nonfin y -> nonfin (f_add x y).
Proof. unfold nonfin. intros H. apply not_true_iff_false. intros K. apply add_fin in K. unfold finite in K. destruct H, K; congruence. Qed.
Lemma nonfin_sub x y : nonfin x \/ nonfin y -> nonfin (f_sub x y).
Proof. unfold nonfin. intros H. apply not_true_iff_false. intros K. apply sub_fin in K. unfold finite in K. destruct H, K; congruence. Qed.
Lemma nonfin_mul x y : nonfin x \/ nonfin y -> nonfin (f_mul x y).
Proof. unfold nonfin. intros H. apply not_true_iff_false. intros K. apply mul_fin in K. unfold finite in K. destruct H, K; congruence. Qed.
Lemma nonfin_div0 x s : nonfin (f_div x (B754_zero s)).
Proof. destruct x; reflexivity. Qed.
(** A sum of squares: an infinity is positive. *)
Definition notneg (x : binary64) : Prop := x = B754_infinity false \/ x = B754_nan \/ (finite x /\ 0 <= val x).
Lemma square_notneg x : notneg (f_mul x x).
Proof.
  destruct (is_finite (f_mul x x)) eqn:F.
  - right. right. split; [exact F|]. rewrite (mul_rnd x x F), fex_flt. apply round_ge_generic; [typeclasses eauto|typeclasses eauto|apply generic_format_0|apply Rle_0_sqr].
  - destruct x as [s|s| |s m e H]; try discriminate F; [left; destruct s; reflexivity|right; left; reflexivity|]. left. pose proof (Bmult_correct 53 1024 _ _ mode_NE (B754_finite s m e H) (B754_finite s m e H)) as B.
    destruct (Rlt_bool _ _) in B; [destruct B as (_ & B & _); unfold f_mul in F; rewrite B in F; discriminate F|]. rewrite overflow_inf in B. cbn [Bsign] in B. rewrite xorb_nilpotent in B. unfold f_mul in *. destruct (Bmult mode_NE (B754_finite s m e H) (B754_finite s m e H)); cbn in B; congruence.
Qed.
Lemma add_notneg x y : notneg x -> notneg y -> notneg (f_add x y) /\ (nonfin x \/ nonfin y -> f_add x y = B754_infinity false \/ f_add x y = B754_nan).
Proof.
  intros Hx Hy. assert (G : f_add x y = B754_infinity false \/ f_add x y = B754_nan \/ (finite (f_add x y) /\ 0 <= val (f_add x y) /\ finite x /\ finite y)).
  { destruct Hx as [->|[->|(Fx & Px)]], Hy as [->|[->|(Fy & Py)]]; try (left; reflexivity); try (right; left; reflexivity); try (right; left; destruct x; reflexivity); try (left; destruct x; try discriminate Fx; reflexivity); try (left; destruct y; try discriminate Fy; reflexivity); try (right; left; destruct y; reflexivity).
    destruct (is_finite (f_add x y)) eqn:F.
    - right. right. split; [exact F|]. split; [|auto]. rewrite (add_rnd x y F), fex_flt. apply round_ge_generic; [typeclasses eauto|typeclasses eauto|apply generic_format_0|lra].
    - left. pose proof (Bplus_correct 53 1024 _ _ mode_NE x y Fx Fy) as B. destruct (Rlt_bool _ _) in B; [destruct B as (_ & B & _); unfold f_add in F; rewrite B in F; discriminate F|]. destruct B as (B & S). rewrite overflow_inf in B.
      assert (Bsign x = false) as SX.
      { destruct (Bsign x) eqn:SX; [|reflexivity]. exfalso. assert (Z : val x = 0 /\ val y = 0).
        { destruct x as [s|s| |s m e H]; try discriminate Fx; destruct y as [s'|s'| |s' m' e' H']; try discriminate Fy; cbn in SX, S; subst; try (split; reflexivity);
            exfalso; cbn in Px, Py; try (assert (F2R (Float radix2 (Zneg m) e) < 0) by (apply F2R_lt_0; reflexivity); lra); try (assert (F2R (Float radix2 (Zneg m') e') < 0) by (apply F2R_lt_0; reflexivity); lra). }
        destruct Z as [Z1 Z2]. assert (finite (f_add x y)) by (apply add_top; try assumption; rewrite Z1, Z2, Rplus_0_l, Rabs_R0; apply bpow_ge_0). unfold finite in *. congruence. }
      rewrite SX in B. unfold f_add in *. destruct (Bplus mode_NE x y); cbn in B; congruence. }
  split.
  - destruct G as [G|[G|(G1 & G2 & _)]]; [left|right; left|right; right]; auto.
  - intros N. destruct G as [G|[G|(_ & _ & G1 & G2)]]; auto. exfalso. unfold nonfin, finite in *. destruct N; congruence.
Qed.
Lemma zero_notneg : notneg f_zero. Proof. right. right. split; [reflexivity|rewrite val_zero; lra]. Qed.
Lemma norm_nonfin (u : vec Fnum) : nonfin (fst u) \/ nonfin (snd u) -> two_norm Fnum u = B754_infinity false \/ two_norm Fnum u = B754_nan.
Proof.
  destruct u as [x y]. cbn [fst snd]. intros H. unfold two_norm. cbn [fst snd nsqrt nadd nmul n0 Fnum].
  destruct (add_notneg f_zero (f_mul x x) zero_notneg (square_notneg x)) as (N1 & I1). destruct (add_notneg _ (f_mul y y) N1 (square_notneg y)) as (_ & I2).
  destruct I2 as [->| ->]; [|left; reflexivity|right; reflexivity]. destruct H as [H|H]; [left; apply nonfin_add; right|right]; apply nonfin_mul; auto.
Qed.
Lemma inf_not_lt x : Bltb (prec := 53) (emax := 1024) (B754_infinity false) x = false /\ Bltb (prec := 53) (emax := 1024) B754_nan x = false.
Proof. destruct x as [s|s| |s m e H]; split; try reflexivity. destruct s; reflexivity. Qed.
(** A zero determinant. *)
Lemma degenerate (d0 d1 d2 p : vec Fnum) s :
  nsub Fnum (nmul Fnum (Bopp (f_sub (snd d1) (snd d0))) (f_mul (f_sub (fst d2) (fst d0)) (Bopp (f_of_Z 1)))) (nmul Fnum (f_sub (fst d1) (fst d0)) (f_mul (Bopp (f_sub (snd d2) (snd d0))) (Bopp (f_of_Z 1)))) = B754_zero s ->
  circum_circle_contains Fnum (d0, d1, d2) p = false.
Proof.
  intros D. unfold circum_circle_contains. cbv zeta. unfold inverse, from_columns, orthogonal, v_mul, v_sub, v_div. cbn [fst snd nneg nmul nof nsub ndiv nadd Fnum] in *. change (Z.of_nat 1) with 1%Z. change (Z.of_nat 2) with 2%Z. rewrite D.
  set (t := f_add _ _). assert (T : nonfin t) by (unfold t; apply nonfin_add; left; apply nonfin_mul; left; apply nonfin_div0). clearbody t.
  unfold sphere_contains. set (c := v_add Fnum _ _). assert (C : nonfin (fst c)) by (unfold c, v_add; cbn [fst nadd Fnum]; apply nonfin_add; right; apply nonfin_mul; right; exact T). clearbody c.
  destruct (norm_nonfin (v_sub Fnum p c)) as [-> | ->]; [left; unfold v_sub; cbn [fst nsub Fnum]; apply nonfin_sub; now right| |]; cbn [nltb Fnum]; apply inf_not_lt.
Qed.
