(** Rounded plane geometry: bounds for single operations. *)
From Coq Require Import ZArith Reals Lra Lia List Arith Bool.
From Flocq Require Import Core Relative Plus_error IEEE754.BinarySingleNaN.
From Verif Require Import PidModel GeomModel FloatModel FloatSpec FloatProofs FloatProofs3 FloatProofs5 GeomFloatModel.
Import ListNotations.
Open Scope R_scope.

(** [x] is finite and its value is [r] up to [e]. *)
Definition apx (x : binary64) (r e : R) : Prop := finite x /\ Rabs (val x - r) <= e.
Definition top : R := bpow radix2 1020.
Lemma top_format : generic_format radix2 (FLT_exp (-1074) 53) top. Proof. apply generic_format_bpow. unfold FLT_exp. lia. Qed.
Lemma rnd_top x : Rabs x <= top -> Rabs (rnd x) < bpow radix2 1024.
Proof. intros H. apply Rle_lt_trans with top; [|apply bpow_lt; lia]. rewrite fex_flt. apply abs_round_le_generic; [typeclasses eauto|typeclasses eauto|apply top_format|exact H]. Qed.
Lemma add_top x y : finite x -> finite y -> Rabs (val x + val y) <= top -> finite (f_add x y).
Proof. intros Fx Fy H. pose proof (Bplus_correct 53 1024 _ _ mode_NE x y Fx Fy) as B. rewrite Rlt_bool_true in B by (apply rnd_top; exact H). unfold finite, f_add. apply B. Qed.
Lemma sub_top x y : finite x -> finite y -> Rabs (val x - val y) <= top -> finite (f_sub x y).
Proof. intros Fx Fy H. pose proof (Bminus_correct 53 1024 _ _ mode_NE x y Fx Fy) as B. rewrite Rlt_bool_true in B by (apply rnd_top; exact H). unfold finite, f_sub. apply B. Qed.
Lemma mul_top x y : finite x -> finite y -> Rabs (val x * val y) <= top -> finite (f_mul x y).
Proof. intros Fx Fy H. pose proof (Bmult_correct 53 1024 _ _ mode_NE x y) as B. rewrite Rlt_bool_true in B by (apply rnd_top; exact H). unfold finite, f_mul. destruct B as (_ & -> & _). unfold finite in *. now rewrite Fx, Fy. Qed.
Lemma div_top x y : finite x -> val y <> 0 -> Rabs (val x / val y) <= top -> finite (f_div x y) /\ val (f_div x y) = rnd (val x / val y).
Proof. intros Fx Hy H. pose proof (Bdiv_correct 53 1024 _ _ mode_NE x y Hy) as B. rewrite Rlt_bool_true in B by (apply rnd_top; exact H). unfold finite, f_div, val. destruct B as (E & -> & _). split; [exact Fx|exact E]. Qed.

Lemma add_apx x y r s e f M : apx x r e -> apx y s f -> Rabs (r + s) <= M -> M + e + f <= top -> apx (f_add x y) (r + s) (e + f + uro * (M + e + f)).
Proof.
  intros (Fx & Ex) (Fy & Ey) HM HT. assert (D : Rabs (val x + val y - (r + s)) <= e + f) by (replace (val x + val y - (r + s)) with ((val x - r) + (val y - s)) by ring; eapply Rle_trans; [apply Rabs_triang|lra]).
  assert (V : Rabs (val x + val y) <= M + e + f) by (pose proof (abs_le_add (val x + val y) (r + s)); lra).
  assert (F : finite (f_add x y)) by (apply add_top; try assumption; lra). split; [exact F|]. destruct (add_err x y F) as (_ & _ & _ & E). pose proof (abs_split (val (f_add x y)) (val x + val y) (r + s)). pose proof uro_pos.
  assert (uro * Rabs (val x + val y) <= uro * (M + e + f)) by (apply Rmult_le_compat_l; lra). lra.
Qed.
Lemma opp_apx x r e : apx x r e -> apx (Bopp x) (- r) e.
Proof. intros (F & E). split; [unfold finite; now rewrite is_finite_Bopp|]. unfold val. rewrite B2R_Bopp. replace (- B2R x - - r) with (- (val x - r)) by (unfold val; ring). now rewrite Rabs_Ropp. Qed.
Lemma sub_apx x y r s e f M : apx x r e -> apx y s f -> Rabs (r - s) <= M -> M + e + f <= top -> apx (f_sub x y) (r - s) (e + f + uro * (M + e + f)).
Proof.
  intros (Fx & Ex) (Fy & Ey) HM HT. assert (D : Rabs (val x - val y - (r - s)) <= e + f) by (replace (val x - val y - (r - s)) with ((val x - r) - (val y - s)) by ring; eapply Rle_trans; [apply Rabs_triang|rewrite Rabs_Ropp; lra]).
  assert (V : Rabs (val x - val y) <= M + e + f) by (pose proof (abs_le_add (val x - val y) (r - s)); lra).
  assert (F : finite (f_sub x y)) by (apply sub_top; try assumption; lra). split; [exact F|]. destruct (sub_err x y F) as (_ & _ & _ & E). pose proof (abs_split (val (f_sub x y)) (val x - val y) (r - s)). pose proof uro_pos.
  assert (uro * Rabs (val x - val y) <= uro * (M + e + f)) by (apply Rmult_le_compat_l; lra). lra.
Qed.
Lemma mul_apx x y r s e f M N : apx x r e -> apx y s f -> Rabs r <= M -> Rabs s <= N -> 0 <= e -> 0 <= f -> M * N + (e * N + M * f + e * f) <= top ->
  apx (f_mul x y) (r * s) ((e * N + M * f + e * f) + (uro * (M * N + (e * N + M * f + e * f)) + tiny)).
Proof.
  intros (Fx & Ex) (Fy & Ey) HM HN He Hf HT. set (E := e * N + M * f + e * f) in *. pose proof (Rabs_pos r). pose proof (Rabs_pos s).
  assert (D : Rabs (val x * val y - r * s) <= E).
  { replace (val x * val y - r * s) with ((val x - r) * s + r * (val y - s) + (val x - r) * (val y - s)) by ring. eapply Rle_trans; [apply Rabs_triang|]. eapply Rle_trans; [apply Rplus_le_compat_r, Rabs_triang|]. rewrite !Rabs_mult.
    pose proof (Rabs_pos (val x - r)). pose proof (Rabs_pos (val y - s)). unfold E. apply Rplus_le_compat; [apply Rplus_le_compat|]; apply Rmult_le_compat; lra. }
  assert (V : Rabs (val x * val y) <= M * N + E). { pose proof (abs_le_add (val x * val y) (r * s)) as T. assert (Rabs (r * s) <= M * N) by (rewrite Rabs_mult; apply Rmult_le_compat; lra). lra. }
  assert (F : finite (f_mul x y)) by (apply mul_top; try assumption; lra). split; [exact F|]. destruct (mul_err x y F) as (_ & _ & G). pose proof (abs_split (val (f_mul x y)) (val x * val y) (r * s)). pose proof uro_pos.
  assert (uro * Rabs (val x * val y) <= uro * (M * N + E)) by (apply Rmult_le_compat_l; lra). lra.
Qed.
Lemma apx_weaken x r e e' : apx x r e -> e <= e' -> apx x r e'.
Proof. intros (F & E) H. split; [exact F|lra]. Qed.
(** Exact operations. *)
Lemma apx_exact x r : apx x r 0 -> val x = r. Proof. intros (_ & H). pose proof (Rabs_pos (val x - r)). assert (Z : Rabs (val x - r) = 0) by lra. destruct (Req_dec (val x - r) 0) as [Q|Q]; [lra|apply Rabs_no_R0 in Q; lra]. Qed.
Lemma exact_apx x r : finite x -> val x = r -> apx x r 0. Proof. intros F E. split; [exact F|]. rewrite E. replace (r - r) with 0 by ring. rewrite Rabs_R0. lra. Qed.
Definition half (m : Z) : R := IZR m / 2.
Lemma half_format m : (Z.abs m <= 2 ^ 53)%Z -> generic_format radix2 (FLT_exp (-1074) 53) (half m).
Proof. intros H. replace (half m) with (IZR m * bpow radix2 (-1)) by (unfold half; rewrite (bpow2_inv 1) by reflexivity; cbn; field). now apply mult_format; lia || lia. Qed.
Lemma rnd_half m : (Z.abs m <= 2 ^ 53)%Z -> rnd (half m) = half m.
Proof. intros H. rewrite fex_flt. apply round_generic; [typeclasses eauto|now apply half_format]. Qed.
Lemma half_top m : (Z.abs m <= 2 ^ 53)%Z -> Rabs (half m) <= top.
Proof. intros H. apply Rle_trans with (bpow radix2 53); [|apply bpow_le; lia]. unfold half, Rdiv. rewrite Rabs_mult, <- abs_IZR. rewrite (Rabs_pos_eq (/ 2)) by lra. change (bpow radix2 53) with (IZR (2 ^ 53)). assert (IZR (Z.abs m) <= IZR (2 ^ 53)) by (apply IZR_le; lia). assert (0 <= IZR (Z.abs m)) by (apply IZR_le; lia). lra. Qed.
Definition isv (x : binary64) (m : Z) : Prop := finite x /\ val x = half m.
Lemma isv_add x y m k : isv x m -> isv y k -> (Z.abs (m + k) <= 2 ^ 53)%Z -> isv (f_add x y) (m + k).
Proof. intros (Fx & Ex) (Fy & Ey) H. assert (E : val x + val y = half (m + k)) by (rewrite Ex, Ey; unfold half; rewrite plus_IZR; field). assert (F : finite (f_add x y)) by (apply add_top; try assumption; rewrite E; now apply half_top). split; [exact F|]. rewrite (add_rnd x y F), E. now apply rnd_half. Qed.
Lemma isv_sub x y m k : isv x m -> isv y k -> (Z.abs (m - k) <= 2 ^ 53)%Z -> isv (f_sub x y) (m - k).
Proof. intros (Fx & Ex) (Fy & Ey) H. assert (E : val x - val y = half (m - k)) by (rewrite Ex, Ey; unfold half; rewrite minus_IZR; field). assert (F : finite (f_sub x y)) by (apply sub_top; try assumption; rewrite E; now apply half_top). split; [exact F|]. rewrite (sub_rnd x y F), E. now apply rnd_half. Qed.
Lemma isv_mul x y m k : isv x (2 * m) -> isv y (2 * k) -> (Z.abs (2 * (m * k)) <= 2 ^ 53)%Z -> isv (f_mul x y) (2 * (m * k)).
Proof. intros (Fx & Ex) (Fy & Ey) H. assert (E : val x * val y = half (2 * (m * k))) by (rewrite Ex, Ey; unfold half; rewrite !mult_IZR; field). assert (F : finite (f_mul x y)) by (apply mul_top; try assumption; rewrite E; now apply half_top). split; [exact F|]. rewrite (mul_rnd x y F), E. now apply rnd_half. Qed.
Lemma isv_opp x m : isv x m -> isv (Bopp x) (- m).
Proof. intros (F & E). split; [unfold finite; now rewrite is_finite_Bopp|]. unfold val in *. rewrite B2R_Bopp, E. unfold half. rewrite opp_IZR. field. Qed.
Lemma f_of_Z_ok z : (Z.abs z <= 2 ^ 52)%Z -> isv (f_of_Z z) (2 * z).
Proof.
  intros H. pose proof (binary_normalize_correct 53 1024 _ _ mode_NE z 0 false) as B. cbn zeta in B. assert (E : F2R (Float radix2 z 0) = half (2 * z)) by (unfold F2R, half; cbn [Defs.Fnum Defs.Fexp bpow]; rewrite mult_IZR; field). rewrite E in B.
  rewrite Rlt_bool_true in B by (apply rnd_top, half_top; lia). rewrite rnd_half in B by lia. destruct B as (B1 & B2 & _). split; [exact B2|exact B1].
Qed.
Lemma isv_half x m : isv x (2 * m) -> (Z.abs m <= 2 ^ 53)%Z -> isv (f_div x (f_of_Z 2)) m.
Proof.
  intros (F & E) H. destruct (f_of_Z_ok 2 ltac:(vm_compute; discriminate)) as (F2 & E2). assert (V2 : val (f_of_Z 2) = 2) by (rewrite E2; unfold half; change (2 * 2)%Z with 4%Z; lra).
  assert (Q : val x / val (f_of_Z 2) = half m) by (rewrite E, V2; unfold half; rewrite mult_IZR; field). destruct (div_top x (f_of_Z 2) F) as (G1 & G2); [rewrite V2; lra|rewrite Q; now apply half_top|]. split; [exact G1|]. rewrite G2, Q. now apply rnd_half.
Qed.
Lemma isv_apx x m : isv x m -> apx x (half m) 0. Proof. intros (F & E). now apply exact_apx. Qed.

(** Square roots. *)
Lemma sqrt_ok x : finite x -> 0 <= val x -> finite (Bsqrt mode_NE x) /\ val (Bsqrt mode_NE x) = rnd (sqrt (val x)).
Proof.
  intros F H. destruct (Bsqrt_correct 53 1024 _ _ mode_NE x) as (E & G & _). split; [|exact E]. unfold finite. rewrite G. unfold finite, val in *. destruct x as [s|s| |s m e B]; try discriminate F; [reflexivity|]. destruct s; [|reflexivity]. exfalso.
  cbn in H. assert (F2R (Float radix2 (Zneg m) e) < 0) by (apply F2R_lt_0; reflexivity). lra.
Qed.
Lemma ltb_ok x y : finite x -> finite y -> (Bltb x y = true <-> val x < val y).
Proof. intros Fx Fy. rewrite Bltb_correct by assumption. unfold val. destruct (Rlt_bool_spec (B2R x) (B2R y)); split; intros; try lra; try reflexivity; discriminate. Qed.
Lemma ltb_irrefl x : Bltb (prec := 53) (emax := 1024) x x = false.
Proof. destruct x as [s|s| |s m e H]; try reflexivity; [destruct s; reflexivity|]. apply not_true_iff_false. intros K. apply ltb_ok in K; [lra|reflexivity|reflexivity]. Qed.
