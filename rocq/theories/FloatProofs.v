(** Rounding errors of the operations of [f64]. *)
From Coq Require Import ZArith Reals Lra Lia List Arith Bool.
From Flocq Require Import Core Relative Plus_error IEEE754.BinarySingleNaN.
From Verif Require Import PidModel MatModel MatSpec NumModel RankModel LuModel FloatModel FloatSpec.
Open Scope R_scope.
Notation fex := (SpecFloat.fexp 53 1024).
Notation rnd := (round radix2 fex (round_mode mode_NE)).
Lemma fex_flt : fex = FLT_exp (-1074) 53.
Proof. reflexivity. Qed.
Lemma val_format x : generic_format radix2 (FLT_exp (-1074) 53) (val x).
Proof. rewrite <- fex_flt. apply generic_format_B2R. Qed.
Lemma uro_pos : 0 < uro < 1.
Proof. unfold uro. split; [apply Rinv_0_lt_compat, pow_lt; lra|]. rewrite <- Rinv_1. apply Rinv_lt_contravar; [rewrite Rmult_1_l; apply pow_lt; lra|]. change 1 with (2 ^ 0) at 1. apply Rlt_pow; [lra|lia]. Qed.
Lemma tiny_pos : 0 < tiny.
Proof. unfold tiny. apply Rinv_0_lt_compat, pow_lt. lra. Qed.
Lemma bpow2_inv (n : nat) z : (z = - Z.of_nat n)%Z -> bpow radix2 z = / 2 ^ n.
Proof. intros ->. rewrite bpow_opp. f_equal. rewrite bpow_powerRZ. rewrite pow_powerRZ. reflexivity. Qed.
Lemma uro_eq : / 2 * bpow radix2 (Z.opp 53 + 1) = uro.
Proof. rewrite (bpow2_inv 52) by reflexivity. unfold uro. rewrite <- Rinv_mult. f_equal. Qed.
Lemma tiny_eq : / 2 * bpow radix2 (-1074) = tiny.
Proof. rewrite (bpow2_inv 1074) by reflexivity. unfold tiny. rewrite <- Rinv_mult. f_equal. Qed.
Lemma overflow_inf s : binary_overflow 53 1024 mode_NE s = SpecFloat.S754_infinity s.
Proof. reflexivity. Qed.
Lemma b2sf_inf (x : binary64) s : B2SF x = SpecFloat.S754_infinity s -> is_finite x = false.
Proof. destruct x; cbn; intros; congruence. Qed.

(** Addition and subtraction: no underflow. *)
Lemma add_fin x y : finite (f_add x y) -> finite x /\ finite y.
Proof. unfold finite, f_add. destruct x as [s|s| |s m e H], y as [s'|s'| |s' m' e' H']; cbn; auto; try discriminate. destruct (Bool.eqb s s'); discriminate. Qed.
Lemma sub_fin x y : finite (f_sub x y) -> finite x /\ finite y.
Proof. unfold finite, f_sub. destruct x as [s|s| |s m e H], y as [s'|s'| |s' m' e' H']; cbn; auto; try discriminate. destruct (Bool.eqb s (negb s')); discriminate. Qed.
Lemma add_rnd x y : finite (f_add x y) -> val (f_add x y) = rnd (val x + val y).
Proof.
  intros F. destruct (add_fin x y F) as [Fx Fy]. pose proof (Bplus_correct 53 1024 _ _ mode_NE x y Fx Fy) as H.
  destruct (Rlt_bool _ _) in H; [apply H|]. destruct H as [H _]. rewrite overflow_inf in H. apply b2sf_inf in H. unfold finite, f_add in F. congruence.
Qed.
Lemma sub_rnd x y : finite (f_sub x y) -> val (f_sub x y) = rnd (val x - val y).
Proof.
  intros F. destruct (sub_fin x y F) as [Fx Fy]. pose proof (Bminus_correct 53 1024 _ _ mode_NE x y Fx Fy) as H.
  destruct (Rlt_bool _ _) in H; [apply H|]. destruct H as [H _]. rewrite overflow_inf in H. apply b2sf_inf in H. unfold finite, f_sub in F. congruence.
Qed.
(** The error is at most [uro] times the result and at most [uro] times the exact value. *)
Lemma rnd_plus x y : generic_format radix2 (FLT_exp (-1074) 53) x -> generic_format radix2 (FLT_exp (-1074) 53) y ->
  Rabs (rnd (x + y) - (x + y)) <= uro * Rabs (rnd (x + y)) /\ Rabs (rnd (x + y) - (x + y)) <= uro * Rabs (x + y).
Proof.
  intros Hx Hy. rewrite fex_flt. split.
  - destruct (FLT_plus_error_N_round_ex radix2 (-1074) 53 (fun z => negb (Z.even z)) x y Hx Hy) as (e & He & E). unfold u_ro in He. rewrite uro_eq in He.
    change (round_mode mode_NE) with (Znearest (fun z => negb (Z.even z))). set (r := round _ _ _ _) in *. rewrite E. replace (r - r * (1 + e)) with (- (e * r)) by ring. rewrite Rabs_Ropp, Rabs_mult. apply Rmult_le_compat_r; [apply Rabs_pos|exact He].
  - destruct (FLT_plus_error_N_ex radix2 (-1074) 53 (fun z => negb (Z.even z)) x y Hx Hy) as (e & He & E). unfold u_ro in He. rewrite uro_eq in He. pose proof uro_pos.
    change (round_mode mode_NE) with (Znearest (fun z => negb (Z.even z))). set (r := round _ _ _ _) in *. rewrite E. replace ((x + y) * (1 + e) - (x + y)) with (e * (x + y)) by ring. rewrite Rabs_mult. apply Rmult_le_compat_r; [apply Rabs_pos|].
    eapply Rle_trans; [exact He|]. unfold Rdiv. rewrite <- (Rmult_1_r uro) at 3. apply Rmult_le_compat_l; [lra|]. rewrite <- Rinv_1 at 2. apply Rinv_le; lra.
Qed.
Lemma add_err x y : finite (f_add x y) -> finite x /\ finite y /\ Rabs (val (f_add x y) - (val x + val y)) <= uro * Rabs (val (f_add x y)) /\ Rabs (val (f_add x y) - (val x + val y)) <= uro * Rabs (val x + val y).
Proof. intros F. destruct (add_fin x y F) as [Fx Fy]. rewrite (add_rnd x y F). destruct (rnd_plus (val x) (val y) (val_format x) (val_format y)) as [A B]. auto. Qed.
Lemma sub_err x y : finite (f_sub x y) -> finite x /\ finite y /\ Rabs (val (f_sub x y) - (val x - val y)) <= uro * Rabs (val (f_sub x y)) /\ Rabs (val (f_sub x y) - (val x - val y)) <= uro * Rabs (val x - val y).
Proof.
  intros F. destruct (sub_fin x y F) as [Fx Fy]. rewrite (sub_rnd x y F). destruct (rnd_plus (val x) (- val y) (val_format x) (generic_format_opp _ _ _ (val_format y))) as [A B].
  replace (val x - val y) with (val x + - val y) by ring. auto.
Qed.
Lemma zero_add y : finite y -> finite (f_add f_zero y) /\ val (f_add f_zero y) = val y.
Proof. unfold finite, f_add, f_zero. destruct y as [s|s| |s m e H]; cbn; intros F; try discriminate; [destruct s|]; split; reflexivity. Qed.
Lemma val_zero : val f_zero = 0. Proof. reflexivity. Qed.
Lemma val_one : val f_one = 1.
Proof. unfold val, f_one. pose proof (binary_normalize_correct 53 1024 _ _ mode_NE 1 0 false) as H. cbn zeta in H. replace (F2R {| Fnum := 1; Fexp := 0 |}) with 1 in H by (unfold F2R; cbn; ring). rewrite round_generic in H; [|typeclasses eauto|].
  - rewrite Rlt_bool_true in H; [apply H|]. rewrite Rabs_R1. change 1 with (bpow radix2 0). apply bpow_lt. lia.
  - change 1 with (bpow radix2 0). apply generic_format_bpow. rewrite fex_flt. unfold FLT_exp. lia. Qed.
Lemma fin_one : finite f_one. Proof. reflexivity. Qed.

(** Multiplication and division. *)
Lemma mul_fin x y : finite (f_mul x y) -> finite x /\ finite y.
Proof. unfold finite, f_mul. destruct x as [s|s| |s m e H], y as [s'|s'| |s' m' e' H']; cbn; auto; try discriminate. Qed.
Lemma mul_rnd x y : finite (f_mul x y) -> val (f_mul x y) = rnd (val x * val y).
Proof.
  intros F. pose proof (Bmult_correct 53 1024 _ _ mode_NE x y) as H.
  destruct (Rlt_bool _ _) in H; [apply H|]. rewrite overflow_inf in H. apply b2sf_inf in H. unfold finite, f_mul in F. congruence.
Qed.
Lemma rnd_any x : Rabs (rnd x - x) <= uro * Rabs x + tiny.
Proof.
  destruct (error_N_FLT radix2 (-1074) 53 ltac:(lia) (fun z => negb (Z.even z)) x) as (e & h & He & Hh & _ & E). rewrite fex_flt. change (round_mode mode_NE) with (Znearest (fun z => negb (Z.even z))). rewrite E. rewrite uro_eq in He. rewrite tiny_eq in Hh.
  replace (x * (1 + e) + h - x) with (e * x + h) by ring. eapply Rle_trans; [apply Rabs_triang|]. apply Rplus_le_compat; [|exact Hh]. rewrite Rabs_mult. apply Rmult_le_compat_r; [apply Rabs_pos|exact He].
Qed.
Lemma mul_err x y : finite (f_mul x y) -> finite x /\ finite y /\ Rabs (val (f_mul x y) - val x * val y) <= uro * Rabs (val x * val y) + tiny.
Proof. intros F. destruct (mul_fin x y F) as [Fx Fy]. split; [exact Fx|]. split; [exact Fy|]. rewrite (mul_rnd x y F). apply rnd_any. Qed.
Lemma div_err x y : finite (f_div x y) -> finite y -> val y <> 0 -> finite x /\ Rabs (val (f_div x y) - val x / val y) <= uro * Rabs (val x / val y) + tiny.
Proof.
  intros F Fy Hy. assert (Fx : finite x). { unfold finite, f_div in *. destruct x as [s|s| |s m e H], y as [s'|s'| |s' m' e' H']; cbn in *; auto; try discriminate. }
  split; [exact Fx|]. pose proof (Bdiv_correct 53 1024 _ _ mode_NE x y Hy) as H.
  destruct (Rlt_bool _ _) in H; [|rewrite overflow_inf in H; apply b2sf_inf in H; unfold finite, f_div in F; congruence].
  destruct H as [H _]. unfold val, f_div at 1. rewrite H. apply rnd_any.
Qed.
Lemma fdiv_err x y q : fdiv x y = Some q -> finite q -> finite y -> val y <> 0 /\ finite x /\ Rabs (val q - val x / val y) <= uro * Rabs (val x / val y) + tiny.
Proof.
  unfold fdiv. cbn [teqb fops_f64]. intros E F Fy. injection E as <-.
  assert (Hy : val y <> 0).
  { unfold finite in *. destruct y as [s|s| |s m e H]; try discriminate Fy.
    - exfalso. destruct x as [s'|s'| |s' m' e' H']; discriminate F.
    - unfold val. cbn. intros K. apply (F2R_neq_0 radix2 (Float radix2 (cond_Zopp s (Zpos m)) e)); [|exact K]. cbn. now destruct s. }
  split; [exact Hy|]. now apply div_err.
Qed.
(** The error of a rounding in terms of the result. *)
Lemma rnd_res x : Rabs (rnd x - x) <= uro * Rabs (rnd x) + tiny.
Proof.
  rewrite fex_flt. change (round_mode mode_NE) with (Znearest (fun z => negb (Z.even z))). pose proof uro_pos. pose proof tiny_pos.
  destruct (Rle_or_lt (bpow radix2 (-1074 + 53 - 1)) (Rabs x)) as [H1|H1].
  - pose proof (relative_error_N_FLT_round radix2 (-1074) 53 ltac:(lia) (fun z => negb (Z.even z)) x H1) as H2. rewrite uro_eq in H2. lra.
  - pose proof (error_le_half_ulp radix2 (FLT_exp (-1074) 53) (fun z => negb (Z.even z)) x) as H2. rewrite ulp_FLT_small in H2; [|reflexivity|eapply Rlt_trans; [exact H1|apply bpow_lt; lia]]. rewrite tiny_eq in H2.
    pose proof (Rabs_pos (round radix2 (FLT_exp (-1074) 53) (Znearest (fun z => negb (Z.even z))) x)). nra.
Qed.
Lemma fdiv_res x y q : fdiv x y = Some q -> finite q -> finite y -> val y <> 0 /\ finite x /\ Rabs (val q * val y - val x) <= uro * Rabs (val q * val y) + tiny * Rabs (val y).
Proof.
  intros E F Fy. destruct (fdiv_err x y q E F Fy) as (Hy & Fx & _). split; [exact Hy|]. split; [exact Fx|].
  assert (Q : Rabs (val q - val x / val y) <= uro * Rabs (val q) + tiny).
  { unfold fdiv in E. cbn [teqb fops_f64] in E. injection E as <-. pose proof (Bdiv_correct 53 1024 _ _ mode_NE x y Hy) as H.
    destruct (Rlt_bool _ _) in H; [|rewrite overflow_inf in H; apply b2sf_inf in H; unfold finite in F; cbn in F; unfold f_div in F; congruence].
    destruct H as [H _]. change (tdiv x y) with (f_div x y). assert (val (f_div x y) = rnd (val x / val y)) as -> by exact H. apply rnd_res. }
  replace (val q * val y - val x) with ((val q - val x / val y) * val y) by (field; exact Hy). rewrite !Rabs_mult. replace (uro * (Rabs (val q) * Rabs (val y)) + tiny * Rabs (val y)) with ((uro * Rabs (val q) + tiny) * Rabs (val y)) by ring.
  apply Rmult_le_compat_r; [apply Rabs_pos|exact Q].
Qed.
