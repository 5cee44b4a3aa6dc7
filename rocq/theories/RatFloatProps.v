(** Property C147: the conversion of a [Rational] to [f64]. *)
From Coq Require Import ZArith QArith Reals Qreals Lra Lia Bool.
From Flocq Require Import Core Relative IEEE754.BinarySingleNaN.
From Verif Require Import PidModel RationalModel RationalSpec RationalProofs RationalProps FloatModel FloatSpec FloatProofs FloatProofs5 RatFloatModel.
Open Scope R_scope.

Lemma two64 : 2 ^ 64 = bpow radix2 64. Proof. rewrite bpow_powerRZ, pow_powerRZ. reflexivity. Qed.
Lemma rnd_big x : bpow radix2 (-1022) <= Rabs x -> Rabs (rnd x - x) <= uro * Rabs x.
Proof. intros H. rewrite fex_flt. change (round_mode mode_NE) with (Znearest (fun z => negb (Z.even z))). rewrite <- uro_eq. apply relative_error_N_FLT; [reflexivity|exact H]. Qed.
Lemma rnd_le_bpow x e : (-1074 <= e)%Z -> Rabs x <= bpow radix2 e -> Rabs (rnd x) <= bpow radix2 e.
Proof. intros He H. rewrite fex_flt. apply abs_round_le_generic; [typeclasses eauto|typeclasses eauto|apply generic_format_bpow; unfold FLT_exp; lia|exact H]. Qed.
(** [u64 as f64] *)
Lemma of_int_val n : (Z.abs n <= 2 ^ 64)%Z -> finite (f_of_int n) /\ val (f_of_int n) = rnd (IZR n).
Proof.
  intros Hn. pose proof (binary_normalize_correct 53 1024 prec_gt_0_53 prec_lt_emax_53 mode_NE n 0 false) as H. cbn zeta in H.
  assert (Q : F2R (Float radix2 n 0) = IZR n) by (unfold F2R; cbn; ring). rewrite Q in H.
  rewrite Rlt_bool_true in H; [destruct H as (H1 & H2 & _); split; [exact H2|exact H1]|].
  apply Rle_lt_trans with (bpow radix2 64); [|apply bpow_lt; lia]. apply rnd_le_bpow; [lia|]. rewrite <- abs_IZR. change (bpow radix2 64) with (IZR (2 ^ 64)). now apply IZR_le.
Qed.
Lemma of_int_exact n : (Z.abs n <= 2 ^ 53)%Z -> val (f_of_int n) = IZR n.
Proof.
  intros Hn. rewrite (proj2 (of_int_val n ltac:(lia))), fex_flt. apply round_generic; [typeclasses eauto|]. replace (IZR n) with (IZR n * bpow radix2 0) by (cbn; ring). apply mult_format; lia.
Qed.
Lemma of_int_err n : (0 <= n <= 2 ^ 64)%Z -> Rabs (val (f_of_int n) - IZR n) <= uro * IZR n /\ val (f_of_int n) <= bpow radix2 64.
Proof.
  intros Hn. destruct (of_int_val n ltac:(lia)) as (_ & ->). split.
  - destruct (Z.eq_dec n 0) as [->|N]; [rewrite round_0 by typeclasses eauto; rewrite Rminus_0_r, Rabs_R0; lra|].
    rewrite <- (Rabs_pos_eq (IZR n)) at 3 by (apply IZR_le; lia). apply rnd_big. rewrite <- abs_IZR. apply Rle_trans with 1; [change 1 with (bpow radix2 0); apply bpow_le; lia|apply IZR_le; lia].
  - eapply Rle_trans; [apply Rle_abs|]. apply rnd_le_bpow; [lia|]. rewrite <- abs_IZR. change (bpow radix2 64) with (IZR (2 ^ 64)). apply IZR_le; lia.
Qed.
Lemma of_int_ge1 n : (1 <= n <= 2 ^ 64)%Z -> 1 <= val (f_of_int n).
Proof.
  intros Hn. destruct (of_int_val n ltac:(lia)) as (_ & ->). apply round_ge_generic; [typeclasses eauto|typeclasses eauto| |apply IZR_le; lia]. rewrite fex_flt. change 1 with (bpow radix2 0). apply generic_format_bpow. unfold FLT_exp. lia.
Qed.
Lemma div_val x y : finite x -> finite y -> val y <> 0 -> Rabs (val x / val y) <= bpow radix2 64 -> finite (f_div x y) /\ val (f_div x y) = rnd (val x / val y).
Proof.
  intros Fx Fy Hy H. pose proof (Bdiv_correct 53 1024 _ _ mode_NE x y Hy) as B. fold (val x) (val y) in B. rewrite Rlt_bool_true in B.
  - destruct B as (B1 & B2 & _). split; [unfold finite, f_div in *; rewrite B2; exact Fx|exact B1].
  - apply Rle_lt_trans with (bpow radix2 64); [now apply rnd_le_bpow|apply bpow_lt; lia].
Qed.
Lemma neg_val x : finite x -> Rabs (val x) <= bpow radix2 64 -> finite (f_mul x (f_of_int (-1))) /\ val (f_mul x (f_of_int (-1))) = - val x.
Proof.
  intros Fx H. assert (E1 : val (f_of_int (-1)) = -1) by (apply of_int_exact; lia). destruct (of_int_val (-1) ltac:(lia)) as (F1 & _).
  destruct (mul_ok x (f_of_int (-1)) 64 Fx F1) as (F & _); [|lia|].
  - rewrite E1. replace (val x * -1) with (- val x) by ring. now rewrite Rabs_Ropp.
  - split; [exact F|]. rewrite (mul_rnd _ _ F), E1. replace (val x * -1) with (- val x) by ring. rewrite fex_flt. apply round_generic; [typeclasses eauto|]. apply generic_format_opp, val_format.
Qed.
Lemma toQ_val r : canonical r -> Q2R (toQ r) = (if sign r then 1 else -1) * (IZR (num r) / IZR (den r)).
Proof.
  intros (_ & D & _). unfold Q2R, toQ. cbn [Qnum Qden]. rewrite Z2Pos.id by exact D. destruct (sign r); [unfold Rdiv; ring|rewrite opp_IZR; unfold Rdiv; ring].
Qed.
Lemma quot_err n d : (0 <= n < 2 ^ 64)%Z -> (1 <= d < 2 ^ 64)%Z -> let out := f_div (f_of_int n) (f_of_int d) in
  finite out /\ 0 <= val out <= bpow radix2 64 /\ val out = rnd (val (f_of_int n) / val (f_of_int d)) /\ Rabs (val out - IZR n / IZR d) <= 4 * uro * (IZR n / IZR d).
Proof.
  intros Hn Hd out. destruct (of_int_val n ltac:(lia)) as (Fn & _). destruct (of_int_val d ltac:(lia)) as (Fd & _). destruct (of_int_err n ltac:(lia)) as (En & Un). destruct (of_int_err d ltac:(lia)) as (Ed & Ud). pose proof (of_int_ge1 d ltac:(lia)) as D1.
  assert (N0 : 0 <= val (f_of_int n)). { destruct (of_int_val n ltac:(lia)) as (_ & ->). apply round_ge_generic; [typeclasses eauto|typeclasses eauto|apply generic_format_0|apply IZR_le; lia]. }
  assert (N1 : n <> 0%Z -> 1 <= val (f_of_int n)) by (intros; apply of_int_ge1; lia).
  assert (PD : 1 <= IZR d) by (apply IZR_le; lia). assert (PN : 0 <= IZR n) by (apply IZR_le; lia).
  set (a := val (f_of_int n)) in *. set (b := val (f_of_int d)) in *. pose proof uro_pos as U. assert (U8 : uro <= / 8) by (unfold uro; lra).
  assert (Q0 : 0 <= a / b) by (apply Rmult_le_pos; [exact N0|left; apply Rinv_0_lt_compat; lra]).
  assert (QB : a / b <= bpow radix2 64). { apply Rmult_le_reg_r with b; [lra|]. unfold Rdiv. rewrite Rmult_assoc, Rinv_l, Rmult_1_r by lra. apply Rle_trans with (bpow radix2 64); [exact Un|]. pose proof (bpow_ge_0 radix2 64). rewrite <- (Rmult_1_r (bpow radix2 64)) at 1. now apply Rmult_le_compat_l. }
  destruct (div_val (f_of_int n) (f_of_int d) Fn Fd) as (Fo & Vo); [fold b; lra|fold a b; rewrite Rabs_pos_eq by exact Q0; exact QB|]. fold out in Fo, Vo. fold a b in Vo.
  assert (OB : 0 <= val out <= bpow radix2 64). { rewrite Vo. split; [apply round_ge_generic; [typeclasses eauto|typeclasses eauto|apply generic_format_0|exact Q0]|]. eapply Rle_trans; [apply Rle_abs|]. apply rnd_le_bpow; [lia|]. now rewrite Rabs_pos_eq. }
  split; [exact Fo|]. split; [exact OB|]. split; [exact Vo|].
  destruct (Z.eq_dec n 0) as [->|NZ].
  - assert (a = 0) as A0 by (unfold a; apply of_int_exact; lia). rewrite Vo, A0. unfold Rdiv. rewrite !Rmult_0_l, round_0 by typeclasses eauto. rewrite Rminus_0_r, Rabs_R0. lra.
  - specialize (N1 NZ). assert (QL : bpow radix2 (-64) <= a / b).
    { apply Rmult_le_reg_r with b; [lra|]. unfold Rdiv. rewrite Rmult_assoc, Rinv_l, Rmult_1_r by lra. apply Rle_trans with (bpow radix2 (-64) * bpow radix2 64); [apply Rmult_le_compat_l; [apply bpow_ge_0|exact Ud]|]. rewrite <- bpow_plus. exact N1. }
    assert (E3 : Rabs (val out - a / b) <= uro * (a / b)). { rewrite Vo. rewrite <- (Rabs_pos_eq (a / b)) at 3 by exact Q0. apply rnd_big. rewrite Rabs_pos_eq by exact Q0. apply Rle_trans with (bpow radix2 (-64)); [apply bpow_le; lia|exact QL]. }
    set (x := IZR n) in *. set (y := IZR d) in *. apply Rabs_le_inv in En, Ed, E3.
    assert (Hx : 0 <= x / y) by (apply Rmult_le_pos; [exact PN|left; apply Rinv_0_lt_compat; lra]).
    assert (XY : x = x / y * y) by (field; lra). assert (AB : a = a / b * b) by (field; lra). set (q := x / y) in *. set (p := a / b) in *.
    assert (P1 : p * (1 - uro) <= (1 + uro) * q). { apply Rmult_le_reg_r with y; [lra|]. apply Rle_trans with (p * b); [|rewrite <- AB; rewrite Rmult_assoc, <- XY; lra]. rewrite Rmult_assoc. apply Rmult_le_compat_l; [exact Q0|lra]. }
    assert (P2 : q * (1 - uro) <= (1 + uro) * p). { apply Rmult_le_reg_r with y; [lra|]. apply Rle_trans with a; [replace (q * (1 - uro) * y) with ((1 - uro) * (q * y)) by ring; rewrite <- XY; lra|]. rewrite AB at 1. replace ((1 + uro) * p * y) with (p * ((1 + uro) * y)) by ring. apply Rmult_le_compat_l; [exact Q0|lra]. }
    apply Rabs_le. split.
    + assert ((1 - uro) * p <= val out) by lra. nra.
    + assert (val out <= (1 + uro) * p) by lra. assert (p <= (1 + 5 / 2 * uro) * q); [|nra].
      apply Rmult_le_reg_r with (1 - uro); [lra|]. eapply Rle_trans; [exact P1|]. replace ((1 + 5 / 2 * uro) * q * (1 - uro)) with (((1 + 5 / 2 * uro) * (1 - uro)) * q) by ring. apply Rmult_le_compat_r; [exact Hx|]. nra.
Qed.
(** C147.  The conversion of a rational number with a numerator and a denominator of 64 bits is finite and has a relative error of at most four roundings. *)
Theorem C147_error : forall r, canonical r -> (num r < 2 ^ 64)%Z -> (den r < 2 ^ 64)%Z ->
  finite (r_into_f64 r) /\ Rabs (val (r_into_f64 r) - Q2R (toQ r)) <= 4 * uro * Rabs (Q2R (toQ r)).
Proof.
  intros r C Hn Hd. pose proof C as (P & D & _). destruct (quot_err (num r) (den r)) as (F & B & _ & E); [lia|lia|]. rewrite (toQ_val r C). unfold r_into_f64.
  assert (Q0 : 0 <= IZR (num r) / IZR (den r)) by (apply Rmult_le_pos; [apply IZR_le; lia|left; apply Rinv_0_lt_compat, IZR_lt; lia]).
  destruct (sign r).
  - split; [exact F|]. rewrite Rmult_1_l, (Rabs_pos_eq (IZR (num r) / IZR (den r))) by exact Q0. exact E.
  - destruct (neg_val _ F) as (F' & ->); [rewrite Rabs_pos_eq; lra|]. split; [exact F'|]. set (q := IZR (num r) / IZR (den r)) in *. replace (- val (f_div (f_of_int (num r)) (f_of_int (den r))) - -1 * q) with (- (val (f_div (f_of_int (num r)) (f_of_int (den r))) - q)) by ring.
    replace (-1 * q) with (- q) by ring. rewrite !Rabs_Ropp, (Rabs_pos_eq q) by exact Q0. exact E.
Qed.
Print Assumptions C147_error.
(** If both have at most 53 bits, the result is the nearest [f64], *)
Theorem C147_nearest : forall r, canonical r -> (num r <= 2 ^ 53)%Z -> (den r <= 2 ^ 53)%Z ->
  val (r_into_f64 r) = round radix2 (FLT_exp (-1074) 53) ZnearestE (Q2R (toQ r)).
Proof.
  intros r C Hn Hd. pose proof C as (P & D & _). destruct (quot_err (num r) (den r)) as (F & B & V & _); [lia|lia|]. rewrite !of_int_exact in V by lia. rewrite (toQ_val r C). unfold r_into_f64. rewrite <- fex_flt. change ZnearestE with (round_mode mode_NE).
  destruct (sign r); [rewrite Rmult_1_l; exact V|]. destruct (neg_val _ F) as (_ & ->); [rewrite Rabs_pos_eq; lra|]. rewrite V. replace (-1 * (IZR (num r) / IZR (den r))) with (- (IZR (num r) / IZR (den r))) by ring. change (round_mode mode_NE) with ZnearestE. now rewrite round_NE_opp.
Qed.
Print Assumptions C147_nearest.
(** and then the conversion is monotone: *)
Theorem C147_monotone : forall r s, canonical r -> canonical s -> (num r <= 2 ^ 53)%Z -> (den r <= 2 ^ 53)%Z -> (num s <= 2 ^ 53)%Z -> (den s <= 2 ^ 53)%Z ->
  (toQ r <= toQ s)%Q -> val (r_into_f64 r) <= val (r_into_f64 s).
Proof. intros r s Cr Cs H1 H2 H3 H4 H. rewrite !C147_nearest by assumption. apply round_le; [typeclasses eauto|typeclasses eauto|]. now apply Qle_Rle. Qed.
Print Assumptions C147_monotone.
(** The sign is kept and only 0 becomes 0. *)
Theorem C147_sign : forall r, canonical r -> (num r < 2 ^ 64)%Z -> (den r < 2 ^ 64)%Z ->
  (0 < val (r_into_f64 r) <-> (0 < toQ r)%Q) /\ (val (r_into_f64 r) < 0 <-> (toQ r < 0)%Q) /\ (val (r_into_f64 r) = 0 <-> (toQ r == 0)%Q).
Proof.
  intros r C Hn Hd. destruct (C147_error r C Hn Hd) as (_ & E). set (v := val (r_into_f64 r)) in *. set (q := Q2R (toQ r)) in *. assert (U8 : 0 < uro <= / 8) by (pose proof uro_pos; unfold uro in *; lra).
  assert (Z0 : Q2R 0 = 0) by (unfold Q2R; cbn; lra).
  assert (A1 : (0 < toQ r)%Q <-> 0 < q) by (rewrite <- Z0; split; [apply Qlt_Rlt|apply Rlt_Qlt]). assert (A2 : (toQ r < 0)%Q <-> q < 0) by (rewrite <- Z0; split; [apply Qlt_Rlt|apply Rlt_Qlt]). assert (A3 : (toQ r == 0)%Q <-> q = 0) by (rewrite <- Z0; split; [apply Qeq_eqR|apply eqR_Qeq]).
  rewrite A1, A2, A3. apply Rabs_le_inv in E. destruct (Rtotal_order q 0) as [K|[K|K]].
  - rewrite (Rabs_left q K) in E. assert (v < 0) by nra. repeat split; intros; lra.
  - rewrite K, Rabs_R0 in E. assert (v = 0) by lra. repeat split; intros; lra.
  - rewrite (Rabs_pos_eq q) in E by lra. assert (0 < v) by nra. repeat split; intros; lra.
Qed.
Print Assumptions C147_sign.
(** Refuted for more than 53 bits: the conversion does not keep the order: (2^53-3)/2^53 is less than (2^53+1)/(2^53+3), but its conversion is greater.
    Outside the canonical forms, the quotient by a negated zero (C14_negated_zero_refuted) converts to minus infinity. *)
Definition r_a : rational := mkR (2 ^ 53 - 3) (2 ^ 53) true.
Definition r_b : rational := mkR (2 ^ 53 + 1) (2 ^ 53 + 3) true.
Theorem C147_order_refuted : rnew u64 (2 ^ 53 - 3) (2 ^ 53) = Some r_a /\ rnew u64 (2 ^ 53 + 1) (2 ^ 53 + 3) = Some r_b /\ canonical r_a /\ canonical r_b /\
  (toQ r_a < toQ r_b)%Q /\ Bltb (r_into_f64 r_b) (r_into_f64 r_a) = true.
Proof. split; [vm_compute; reflexivity|]. split; [vm_compute; reflexivity|]. repeat split; vm_compute; congruence. Qed.
Print Assumptions C147_order_refuted.
Theorem C147_zero_denominator_refuted : exists r, run u64 (RDiv (RNew 1 1) (RNeg (RNew 0 1))) = Some r /\ r_into_f64 r = B754_infinity true.
Proof. exists (mkR 1 0 false). split; vm_compute; reflexivity. Qed.
Print Assumptions C147_zero_denominator_refuted.
Example C147_nontrivial : exists r, run u64 (RSub (RNew 1 3) (RNew 5 4)) = Some r /\ canonical r /\ (num r < 2 ^ 64)%Z /\ (den r < 2 ^ 64)%Z /\ (toQ r == - 11 # 12)%Q /\ Bltb (r_into_f64 r) (f_of_int 0) = true.
Proof. exists (mkR 11 12 false). split; [vm_compute; reflexivity|]. repeat split; vm_compute; congruence. Qed.
