(** The circle test at [f64] for points with small integer coordinates. *)
From Coq Require Import ZArith Reals Lra Lia List Arith Bool.
From Flocq Require Import Core Relative Plus_error IEEE754.BinarySingleNaN.
From Verif Require Import PidModel GeomModel GeomSpec FloatModel FloatSpec FloatProofs FloatProofs3 FloatProofs5 GeomFloatModel GeomFloatProofs GeomFloatProofs2.
Import ListNotations.
Open Scope R_scope.
Lemma uro_num : uro = / 9007199254740992. Proof. unfold uro. f_equal. lra. Qed.
Lemma tiny_num : 0 < tiny <= / 1267650600228229401496703205376.
Proof. split; [apply tiny_pos|]. unfold tiny. apply Rinv_le_contravar; [lra|]. replace 1267650600228229401496703205376 with (2 ^ 100) by lra. apply Rle_pow; [lra|lia]. Qed.
Lemma top_num : 1267650600228229401496703205376 <= top.
Proof. unfold top. replace 1267650600228229401496703205376 with (bpow radix2 100); [apply bpow_le; lia|]. cbn. lra. Qed.
Lemma abs_IZR_le z k : (Z.abs z <= k)%Z -> Rabs (IZR z) <= IZR k. Proof. intros H. rewrite <- abs_IZR. now apply IZR_le. Qed.

Section Small.
  Variables x0 y0 x1 y1 x2 y2 : Z.
  Hypothesis H0 : (Z.abs x0 <= 64 /\ Z.abs y0 <= 64)%Z.
  Hypothesis H1 : (Z.abs x1 <= 64 /\ Z.abs y1 <= 64)%Z.
  Hypothesis H2 : (Z.abs x2 <= 64 /\ Z.abs y2 <= 64)%Z.
  Let vx := (x1 - x0)%Z. Let vy := (y1 - y0)%Z. Let wx := (x2 - x0)%Z. Let wy := (y2 - y0)%Z.
  Definition zdet : Z := ((y1 - y0) * (x2 - x0) - (x1 - x0) * (y2 - y0))%Z.
  Let D := zdet.
  (** The exact quantities. *)
  Definition ex_t : R := - (IZR (x2 - x0) * (IZR (x2 - x1) / 2) + IZR (y2 - y0) * (IZR (y2 - y1) / 2)) / IZR zdet.
  Definition ex_o : R * R := (IZR x0 + IZR (x1 - x0) / 2 - IZR (y1 - y0) * ex_t, IZR y0 + IZR (y1 - y0) / 2 + IZR (x1 - x0) * ex_t).
  Let F := f_of_Z.
  Lemma F_ok z : (Z.abs z <= 64)%Z -> isv (F z) (2 * z). Proof. intros H. apply f_of_Z_ok. lia. Qed.
  Lemma diff_ok a b : (Z.abs a <= 64)%Z -> (Z.abs b <= 64)%Z -> isv (f_sub (F a) (F b)) (2 * (a - b)).
  Proof. intros Ha Hb. replace (2 * (a - b))%Z with (2 * a - 2 * b)%Z by lia. apply isv_sub; [now apply F_ok|now apply F_ok|lia]. Qed.
  Lemma mid_ok a b : (Z.abs a <= 64)%Z -> (Z.abs b <= 64)%Z -> isv (f_add (F a) (f_div (f_sub (F b) (F a)) (F 2))) (2 * a + (b - a)).
  Proof. intros Ha Hb. apply isv_add; [now apply F_ok|apply isv_half; [now apply diff_ok|lia]|lia]. Qed.
  Lemma neg1_ok : isv (Bopp (F 1)) (2 * (-1)). Proof. change (2 * -1)%Z with (- (2 * 1))%Z. apply isv_opp, F_ok. lia. Qed.
  Lemma half_even m : half (2 * m) = IZR m. Proof. unfold half. rewrite mult_IZR. field. Qed.
  (** [t] of the program. *)
  Definition fl_det : binary64 := f_sub (f_mul (Bopp (f_sub (F y1) (F y0))) (f_mul (f_sub (F x2) (F x0)) (Bopp (F 1)))) (f_mul (f_sub (F x1) (F x0)) (f_mul (Bopp (f_sub (F y2) (F y0))) (Bopp (F 1)))).
  Lemma m01_ok : isv (f_mul (Bopp (f_sub (F y2) (F y0))) (Bopp (F 1))) (2 * wy).
  Proof. replace (2 * wy)%Z with (2 * ((- wy) * (-1)))%Z by lia. apply isv_mul; [|apply neg1_ok|unfold wy; lia]. replace (2 * - wy)%Z with (- (2 * wy))%Z by lia. apply isv_opp. now apply diff_ok. Qed.
  Lemma m11_ok : isv (f_mul (f_sub (F x2) (F x0)) (Bopp (F 1))) (2 * (- wx)).
  Proof. replace (2 * - wx)%Z with (2 * (wx * (-1)))%Z by lia. apply isv_mul; [now apply diff_ok|apply neg1_ok|unfold wx; lia]. Qed.
  Lemma det_ok : isv fl_det (2 * D).
  Proof.
    replace (2 * D)%Z with (2 * ((- vy) * (- wx)) - 2 * (vx * wy))%Z by (unfold D, zdet, vx, vy, wx, wy; ring). apply isv_sub.
    - apply isv_mul; [|apply m11_ok|unfold vy, wx; nia]. replace (2 * - vy)%Z with (- (2 * vy))%Z by lia. apply isv_opp. now apply diff_ok.
    - apply isv_mul; [now apply diff_ok|apply m01_ok|unfold vx, wy; nia].
    - unfold vx, vy, wx, wy. nia.
  Qed.
  Hypothesis HD : D <> 0%Z.
  Let s := / Rabs (IZR D).
  Lemma D_bounds : 1 <= Rabs (IZR D) <= 32768.
  Proof. rewrite <- abs_IZR. assert (A : (1 <= Z.abs D)%Z) by lia. split; [now apply IZR_le|]. apply IZR_le. unfold D, zdet. nia. Qed.
  Lemma s_bounds : / 32768 <= s <= 1.
  Proof. pose proof D_bounds. unfold s. split; [apply Rinv_le_contravar; lra|]. rewrite <- Rinv_1. apply Rinv_le_contravar; lra. Qed.
  Definition fl_t : binary64 :=
    f_add (f_mul (f_div (f_mul (f_sub (F x2) (F x0)) (Bopp (F 1))) fl_det) (f_sub (f_add (F x0) (f_div (f_sub (F x2) (F x0)) (F 2))) (f_add (F x0) (f_div (f_sub (F x1) (F x0)) (F 2)))))
          (f_mul (f_div (Bopp (f_mul (Bopp (f_sub (F y2) (F y0))) (Bopp (F 1)))) fl_det) (f_sub (f_add (F y0) (f_div (f_sub (F y2) (F y0)) (F 2))) (f_add (F y0) (f_div (f_sub (F y1) (F y0)) (F 2))))).
  Lemma quot_ok x k : isv x (2 * k) -> (Z.abs k <= 128)%Z -> apx (f_div x fl_det) (IZR k / IZR D) (129 * uro * s) /\ Rabs (IZR k / IZR D) <= 128 * s.
  Proof.
    intros (Fx & Ex) Hk. destruct det_ok as (FD & ED). rewrite half_even in Ex, ED. pose proof s_bounds as S. pose proof top_num. pose proof tiny_num. pose proof D_bounds.
    assert (Q : Rabs (IZR k / IZR D) <= 128 * s) by (unfold Rdiv, s; rewrite Rabs_mult, Rabs_inv; apply Rmult_le_compat_r; [left; apply Rinv_0_lt_compat; lra|now apply abs_IZR_le]).
    assert (N : val fl_det <> 0) by (rewrite ED; apply not_0_IZR; exact HD). split; [|exact Q]. rewrite <- Ex, <- ED in *. destruct (div_top x fl_det Fx N) as (F1 & F2); [lra|]. split; [exact F1|]. destruct (div_err x fl_det F1 FD N) as (_ & E). rewrite uro_num in *.
    assert (/ 9007199254740992 * Rabs (val x / val fl_det) <= / 9007199254740992 * (128 * s)) by (apply Rmult_le_compat_l; lra). lra.
  Qed.
  Lemma term_ok x y k m : isv x (2 * k) -> (Z.abs k <= 128)%Z -> isv y m -> (Z.abs m <= 128)%Z ->
    apx (f_mul (f_div x fl_det) y) (IZR k / IZR D * half m) (16500 * uro * s) /\ Rabs (IZR k / IZR D * half m) <= 8192 * s.
  Proof.
    intros Hx Hk Hy Hm. destruct (quot_ok x k Hx Hk) as (Q & B). apply isv_apx in Hy. assert (M : Rabs (half m) <= 64) by (unfold half, Rdiv; rewrite Rabs_mult, (Rabs_pos_eq (/ 2)) by lra; pose proof (abs_IZR_le m 128 Hm); lra).
    pose proof s_bounds as S. pose proof top_num. pose proof tiny_num. pose proof uro_num as U. split.
    - eapply apx_weaken; [apply (mul_apx _ _ _ _ (129 * uro * s) 0 (128 * s) 64 Q Hy B M); rewrite ?U; lra|]. rewrite U. lra.
    - rewrite Rabs_mult. replace (8192 * s) with (128 * s * 64) by ring. apply Rmult_le_compat; try apply Rabs_pos; assumption.
  Qed.
  Lemma t_ok : apx fl_t ex_t (49500 * uro * s) /\ Rabs ex_t <= 16384 * s.
  Proof.
    pose proof s_bounds as S. pose proof top_num. pose proof tiny_num. pose proof uro_num as U.
    destruct (term_ok _ (f_sub (f_add (F x0) (f_div (f_sub (F x2) (F x0)) (F 2))) (f_add (F x0) (f_div (f_sub (F x1) (F x0)) (F 2)))) (- wx) (2 * x0 + (x2 - x0) - (2 * x0 + (x1 - x0))) m11_ok) as (A1 & B1); [unfold wx; lia|apply isv_sub; [now apply mid_ok|now apply mid_ok|lia]|lia|].
    assert (MM : isv (Bopp (f_mul (Bopp (f_sub (F y2) (F y0))) (Bopp (F 1)))) (2 * - wy)) by (replace (2 * - wy)%Z with (- (2 * wy))%Z by lia; apply isv_opp, m01_ok).
    destruct (term_ok _ (f_sub (f_add (F y0) (f_div (f_sub (F y2) (F y0)) (F 2))) (f_add (F y0) (f_div (f_sub (F y1) (F y0)) (F 2)))) (- wy) (2 * y0 + (y2 - y0) - (2 * y0 + (y1 - y0))) MM) as (A2 & B2); [unfold wy; lia|apply isv_sub; [now apply mid_ok|now apply mid_ok|lia]|lia|].
    assert (E : IZR (- wx) / IZR D * half (2 * x0 + (x2 - x0) - (2 * x0 + (x1 - x0))) + IZR (- wy) / IZR D * half (2 * y0 + (y2 - y0) - (2 * y0 + (y1 - y0))) = ex_t).
    { unfold ex_t, half. replace (2 * x0 + (x2 - x0) - (2 * x0 + (x1 - x0)))%Z with (x2 - x1)%Z by lia. replace (2 * y0 + (y2 - y0) - (2 * y0 + (y1 - y0)))%Z with (y2 - y1)%Z by lia. rewrite !opp_IZR. fold D. unfold wx, wy. field. apply not_0_IZR. exact HD. }
    assert (B : Rabs ex_t <= 16384 * s) by (rewrite <- E; eapply Rle_trans; [apply Rabs_triang|lra]). split; [|exact B]. rewrite <- E in *.
    eapply apx_weaken; [apply (add_apx _ _ _ _ _ _ (16384 * s) A1 A2 B); rewrite ?U; lra|]. rewrite U. lra.
  Qed.
  Definition fl_o : binary64 * binary64 := (f_add (f_add (F x0) (f_div (f_sub (F x1) (F x0)) (F 2))) (f_mul (Bopp (f_sub (F y1) (F y0))) fl_t), f_add (f_add (F y0) (f_div (f_sub (F y1) (F y0)) (F 2))) (f_mul (f_sub (F x1) (F x0)) fl_t)).
  Lemma coord_ok a b x k : (Z.abs a <= 64)%Z -> (Z.abs b <= 64)%Z -> isv x (2 * k) -> (Z.abs k <= 128)%Z ->
    apx (f_add (f_add (F a) (f_div (f_sub (F b) (F a)) (F 2))) (f_mul x fl_t)) (IZR a + IZR (b - a) / 2 + IZR k * ex_t) (12640000 * uro * s) /\ Rabs (IZR a + IZR (b - a) / 2 + IZR k * ex_t) <= 4194304 * s.
  Proof.
    intros Ha Hb Hx Hk. pose proof s_bounds as S. pose proof top_num. pose proof tiny_num. pose proof uro_num as U. destruct t_ok as (T & BT). apply isv_apx in Hx. rewrite half_even in Hx. pose proof (abs_IZR_le k 128 Hk) as BK.
    pose proof (mul_apx _ _ _ _ 0 _ 128 (16384 * s) Hx T BK BT) as P. assert (P' : apx (f_mul x fl_t) (IZR k * ex_t) (8440000 * uro * s)) by (eapply apx_weaken; [apply P; rewrite ?U; lra|]; rewrite ?U; lra). clear P.
    assert (PB : Rabs (IZR k * ex_t) <= 2097152 * s) by (rewrite Rabs_mult; replace (2097152 * s) with (128 * (16384 * s)) by ring; apply Rmult_le_compat; try apply Rabs_pos; assumption).
    pose proof (isv_apx _ _ (mid_ok a b Ha Hb)) as A. assert (EA : half (2 * a + (b - a)) = IZR a + IZR (b - a) / 2) by (unfold half; rewrite plus_IZR, mult_IZR; field). rewrite EA in A.
    assert (AB : Rabs (IZR a + IZR (b - a) / 2) <= 64). { rewrite <- EA. unfold half, Rdiv. rewrite Rabs_mult, (Rabs_pos_eq (/ 2)) by lra. pose proof (abs_IZR_le (2 * a + (b - a)) 128 ltac:(lia)). lra. }
    assert (B : Rabs (IZR a + IZR (b - a) / 2 + IZR k * ex_t) <= 4194304 * s) by (eapply Rle_trans; [apply Rabs_triang|lra]). split; [|exact B].
    eapply apx_weaken; [apply (add_apx _ _ _ _ _ _ (4194304 * s) A P' B); rewrite ?U; lra|]. rewrite U. lra.
  Qed.
  Lemma o_ok : (apx (fst fl_o) (fst ex_o) (12640000 * uro * s) /\ Rabs (fst ex_o) <= 4194304 * s) /\ (apx (snd fl_o) (snd ex_o) (12640000 * uro * s) /\ Rabs (snd ex_o) <= 4194304 * s).
  Proof.
    unfold fl_o, ex_o. cbn [fst snd]. split.
    - replace (IZR x0 + IZR (x1 - x0) / 2 - IZR (y1 - y0) * ex_t) with (IZR x0 + IZR (x1 - x0) / 2 + IZR (- vy) * ex_t) by (rewrite opp_IZR; unfold vy; ring). apply coord_ok; try tauto; [|unfold vy; lia]. replace (2 * - vy)%Z with (- (2 * vy))%Z by lia. apply isv_opp. now apply diff_ok.
    - apply coord_ok; try tauto; [now apply diff_ok|lia].
  Qed.
  (** The sum of squares of [two_norm]. *)
  Definition fl_sq (px py : Z) : binary64 := f_add (f_add f_zero (f_mul (f_sub (F px) (fst fl_o)) (f_sub (F px) (fst fl_o)))) (f_mul (f_sub (F py) (snd fl_o)) (f_sub (F py) (snd fl_o))).
  Lemma sq_ok p x o : (Z.abs p <= 64)%Z -> apx x o (12640000 * uro * s) -> Rabs o <= 4194304 * s ->
    apx (f_mul (f_sub (F p) x) (f_sub (F p) x)) ((IZR p - o) * (IZR p - o)) (277920000000000 * uro * (s * s)) /\ Rabs ((IZR p - o) * (IZR p - o)) <= 39582418599936 * (s * s).
  Proof.
    intros Hp HX HO. pose proof s_bounds as S. pose proof top_num. pose proof tiny_num. pose proof uro_num as U. pose proof (isv_apx _ _ (F_ok p Hp)) as P. rewrite half_even in P. pose proof (abs_IZR_le p 64 Hp) as BP.
    assert (B : Rabs (IZR p - o) <= 6291456 * s) by (eapply Rle_trans; [apply Rabs_triang|]; rewrite Rabs_Ropp; lra).
    assert (Q : apx (f_sub (F p) x) (IZR p - o) (18940000 * uro * s)) by (eapply apx_weaken; [apply (sub_apx _ _ _ _ _ _ (6291456 * s) P HX B); rewrite ?U; lra|]; rewrite ?U; lra).
    assert (SS : / 32768 * / 32768 <= s * s <= 1) by (split; [apply Rmult_le_compat; lra|replace 1 with (1 * 1) by ring; apply Rmult_le_compat; lra]). split.
    - eapply apx_weaken; [apply (mul_apx _ _ _ _ _ _ (6291456 * s) (6291456 * s) Q Q B B); rewrite ?U; lra|]. rewrite U. lra.
    - rewrite Rabs_mult. replace (39582418599936 * (s * s)) with (6291456 * s * (6291456 * s)) by ring. apply Rmult_le_compat; try apply Rabs_pos; assumption.
  Qed.
  Lemma fl_sq_ok px py : (Z.abs px <= 64)%Z -> (Z.abs py <= 64)%Z -> apx (fl_sq px py) (dist2 (IZR px, IZR py) ex_o) (636000000000000 * uro * (s * s)) /\ Rabs (dist2 (IZR px, IZR py) ex_o) <= 79164837199872 * (s * s).
  Proof.
    intros Hx Hy. destruct o_ok as ((O1 & B1) & (O2 & B2)). destruct (sq_ok px _ _ Hx O1 B1) as (Q1 & C1), (sq_ok py _ _ Hy O2 B2) as (Q2 & C2). pose proof s_bounds as S. pose proof top_num. pose proof uro_num as U.
    assert (SS : / 32768 * / 32768 <= s * s <= 1) by (split; [apply Rmult_le_compat; lra|replace 1 with (1 * 1) by ring; apply Rmult_le_compat; lra]).
    assert (Z1 : apx (f_add f_zero (f_mul (f_sub (F px) (fst fl_o)) (f_sub (F px) (fst fl_o)))) ((IZR px - fst ex_o) * (IZR px - fst ex_o)) (277920000000000 * uro * (s * s))).
    { destruct Q1 as (Q1 & E1). destruct (zero_add _ Q1) as (F1 & V1). split; [exact F1|]. now rewrite V1. }
    unfold dist2. cbn [fst snd]. assert (B : Rabs ((IZR px - fst ex_o) * (IZR px - fst ex_o) + (IZR py - snd ex_o) * (IZR py - snd ex_o)) <= 79164837199872 * (s * s)) by (eapply Rle_trans; [apply Rabs_triang|lra]). split; [|exact B].
    eapply apx_weaken; [apply (add_apx _ _ _ _ _ _ (79164837199872 * (s * s)) Z1 Q2 B); rewrite ?U; lra|]. rewrite U. lra.
  Qed.
  (** The margin: the difference of the squared distances is a multiple of [1 / D]. *)
  Lemma margin px py : exists N : Z, (dist2 (IZR px, IZR py) ex_o - dist2 (IZR x0, IZR y0) ex_o) * IZR D = IZR N.
  Proof.
    set (T := (- ((x2 - x0) * (x2 - x1) + (y2 - y0) * (y2 - y1)))%Z).
    exists (((px - x0) * (px - x0) + (py - y0) * (py - y0)) * zdet - ((px - x0) * ((x1 - x0) * zdet - (y1 - y0) * T) + (py - y0) * ((y1 - y0) * zdet + (x1 - x0) * T)))%Z.
    unfold dist2, ex_o, ex_t. cbn [fst snd]. assert (N : IZR zdet <> 0) by (apply not_0_IZR; exact HD). fold D in N. unfold T. repeat (rewrite ?minus_IZR, ?plus_IZR, ?mult_IZR, ?opp_IZR). fold D. field. exact N.
  Qed.
  Lemma gap px py : dist2 (IZR px, IZR py) ex_o <> dist2 (IZR x0, IZR y0) ex_o -> s <= Rabs (dist2 (IZR px, IZR py) ex_o - dist2 (IZR x0, IZR y0) ex_o).
  Proof.
    intros Hne. destruct (margin px py) as (N & E). set (q := dist2 (IZR px, IZR py) ex_o - dist2 (IZR x0, IZR y0) ex_o) in *. pose proof D_bounds as DB. unfold s. apply Rmult_le_reg_r with (Rabs (IZR D)); [lra|]. rewrite Rinv_l by lra. rewrite <- Rabs_mult, E, <- abs_IZR. apply IZR_le.
    assert (N <> 0%Z); [|lia]. intros ->. assert (q = 0); [|unfold q in *; lra]. destruct (Rmult_integral _ _ E) as [K|K]; [exact K|]. rewrite K, Rabs_R0 in DB. lra.
  Qed.
  Lemma test_eq px py : circum_circle_contains Fnum ((F x0, F y0), (F x1, F y1), (F x2, F y2)) (F px, F py) = Bltb (Bsqrt mode_NE (fl_sq px py)) (Bsqrt mode_NE (fl_sq x0 y0)).
  Proof.
    unfold circum_circle_contains. cbv zeta. unfold inverse, from_columns, orthogonal, sphere_contains, v_add, v_mul, v_sub, v_div, two_norm. cbn [fst snd nneg nmul nof nsub ndiv nadd nltb nsqrt n0 Fnum]. change (Z.of_nat 1) with 1%Z. change (Z.of_nat 2) with 2%Z.
    unfold fl_sq, fl_o, fl_t, fl_det, F. cbn [fst snd]. reflexivity.
  Qed.
  Lemma sq_nonneg px py : finite (fl_sq px py) -> 0 <= val (fl_sq px py).
  Proof.
    unfold fl_sq. set (X := f_sub (F px) (fst fl_o)). set (Y := f_sub (F py) (snd fl_o)). intros FF. destruct (add_fin _ _ FF) as (Fa & Fb). pose proof Fa as Fa'. apply add_fin in Fa'. destruct Fa' as (_ & Fx). destruct (zero_add _ Fx) as (_ & V). rewrite (add_rnd _ _ FF), V.
    assert (P : forall z, finite (f_mul z z) -> 0 <= val (f_mul z z)). { intros z Fz. rewrite (mul_rnd z z Fz), fex_flt. apply round_ge_generic; [typeclasses eauto|typeclasses eauto|apply generic_format_0|apply Rle_0_sqr]. }
    pose proof (P X Fx). pose proof (P Y Fb). rewrite fex_flt. apply round_ge_generic; [typeclasses eauto|typeclasses eauto|apply generic_format_0|lra].
  Qed.
  Lemma sqrt_bound x : 0 <= x -> x <= 80000000000000 * (s * s) -> sqrt x <= 9000000 * s.
  Proof. intros Hx H. pose proof s_bounds. rewrite <- (sqrt_square (9000000 * s)) by lra. apply sqrt_le_1_alt. eapply Rle_trans; [exact H|]. assert (0 <= s * s) by (apply Rmult_le_pos; lra). lra. Qed.
  Theorem small_test px py : (Z.abs px <= 64)%Z -> (Z.abs py <= 64)%Z ->
    (dist2 (IZR px, IZR py) ex_o < dist2 (IZR x0, IZR y0) ex_o -> circum_circle_contains Fnum ((F x0, F y0), (F x1, F y1), (F x2, F y2)) (F px, F py) = true) /\
    (dist2 (IZR x0, IZR y0) ex_o < dist2 (IZR px, IZR py) ex_o -> circum_circle_contains Fnum ((F x0, F y0), (F x1, F y1), (F x2, F y2)) (F px, F py) = false).
  Proof.
    intros Hpx Hpy. rewrite test_eq.
    destruct (fl_sq_ok px py Hpx Hpy) as ((FP & EP) & BP). destruct (fl_sq_ok x0 y0 (proj1 H0) (proj2 H0)) as ((FA & EA) & BA). pose proof (sq_nonneg _ _ FP) as NP. pose proof (sq_nonneg _ _ FA) as NA.
    destruct (sqrt_ok _ FP NP) as (GP & VP), (sqrt_ok _ FA NA) as (GA & VA). pose proof (gap px py) as G. pose proof s_bounds as S. pose proof uro_num as U. pose proof tiny_num as TN.
    assert (SS : s * s <= s) by (rewrite <- (Rmult_1_r s) at 3; apply Rmult_le_compat_l; lra). assert (SP : 0 <= s * s) by (apply Rmult_le_pos; lra). rewrite U in EP, EA.
    set (P := val (fl_sq px py)) in *. set (A := val (fl_sq x0 y0)) in *. set (dp := dist2 (IZR px, IZR py) ex_o) in *. set (da := dist2 (IZR x0, IZR y0) ex_o) in *.
    apply Rabs_le_inv in EP, EA, BP, BA. split; intros H.
    - apply ltb_ok; [exact GP|exact GA|]. rewrite VP, VA. specialize (G ltac:(lra)). rewrite Rabs_left in G by lra.
      assert (AP : 84 / 100 * s <= A - P) by lra. pose proof (sqrt_bound P NP ltac:(lra)) as Q1. pose proof (sqrt_bound A NA ltac:(lra)) as Q2. pose proof (sqrt_pos P) as P1. pose proof (sqrt_pos A) as P2.
      assert (E : (sqrt A - sqrt P) * (sqrt A + sqrt P) = A - P) by (replace ((sqrt A - sqrt P) * (sqrt A + sqrt P)) with (sqrt A * sqrt A - sqrt P * sqrt P) by ring; rewrite !sqrt_sqrt by assumption; reflexivity).
      assert (DD : 4 / 100000000 <= sqrt A - sqrt P).
      { apply Rnot_lt_le. intros K. assert (LT : sqrt P <= sqrt A) by (apply sqrt_le_1_alt; lra). assert ((sqrt A - sqrt P) * (sqrt A + sqrt P) <= 4 / 100000000 * (18000000 * s)) by (apply Rmult_le_compat; lra). lra. }
      pose proof (rnd_any (sqrt P)) as R1. pose proof (rnd_any (sqrt A)) as R2. rewrite (Rabs_pos_eq (sqrt P)) in R1 by assumption. rewrite (Rabs_pos_eq (sqrt A)) in R2 by assumption. rewrite U in R1, R2. apply Rabs_le_inv in R1, R2. lra.
    - apply not_true_iff_false. intros K. apply ltb_ok in K; [|exact GP|exact GA]. rewrite VP, VA in K. specialize (G ltac:(lra)). rewrite Rabs_pos_eq in G by lra. apply (Rlt_not_le _ _ K). rewrite fex_flt. apply round_le; [typeclasses eauto|typeclasses eauto|]. apply sqrt_le_1_alt. lra.
  Qed.
End Small.
