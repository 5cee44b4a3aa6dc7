(** Determinants, range and totality for the [f64] instance. *)
From Coq Require Import ZArith Reals Lra Lia List Arith Bool.
From Flocq Require Import Core Relative IEEE754.BinarySingleNaN.
From Verif Require Import PidModel MatModel MatSpec MatProofs SnfModel NumModel RankModel LuModel LuSpec LuProofs LuProofs2 NumProofs FloatModel FloatSpec FloatProofs FloatProofs2 FloatProofs3 FloatProofs4.
Import ListNotations.
Open Scope R_scope.

Lemma rproduct_first n (f : nat -> R) : product (S n) f = f 0%nat * product n (fun i => f (S i)).
Proof. induction n as [|n IH]; [cbn; ring|]. cbn [product] in *. rewrite IH. change (@tmul R ops_R) with Rmult. ring. Qed.
(** The determinant of a product of the two triangular parts. *)
Lemma det_LU n : forall f : nat -> nat -> R, determinant n (prod_entry n (lower_part f) (upper_part f)) = product n (fun i => f i i).
Proof.
  induction n as [|n IH]; intros f; [reflexivity|]. set (P := prod_entry (S n) (lower_part f) (upper_part f)).
  assert (P0 : forall j, P 0%nat j = upper_part f 0 j).
  { intros j. unfold P, prod_entry. rewrite (sum_first n). change (tmul (lower_part f 0 0) (upper_part f 0 j)) with (1 * upper_part f 0 j). rewrite FloatProofs3.rsum_zero; [ring|]. intros l _. change (tmul (lower_part f 0 (S l)) (upper_part f (S l) j)) with (0 * upper_part f (S l) j). ring. }
  rewrite <- (det_clear RLr n P (fun i => - lower_part f i 0)).
  assert (PS : forall i j, P (S i) j = lower_part f (S i) 0 * upper_part f 0 j + sum n (fun l => lower_part f (S i) (S l) * upper_part f (S l) j)).
  { intros i j. unfold P, prod_entry. now rewrite (sum_first n). }
  rewrite (det_first_column RLr).
  - rewrite rproduct_first. cbn [Nat.eqb]. rewrite P0. rewrite <- (IH (fun i j => f (S i) (S j))). change (upper_part f 0 0) with (f 0%nat 0%nat). apply (f_equal (Rmult (f 0%nat 0%nat))). apply det_ext. intros i j Hi Hj. change (tadd ?a ?b) with (a + b). change (tmul ?a ?b) with (a * b). rewrite PS, P0.
    replace (upper_part f 0 (S j)) with (f 0%nat (S j)) by reflexivity. unfold prod_entry. rewrite (FloatProofs2.sum_ext n (fun l => tmul (lower_part (fun i0 j0 => f (S i0) (S j0)) i l) (upper_part (fun i0 j0 => f (S i0) (S j0)) l j)) (fun l => lower_part f (S i) (S l) * upper_part f (S l) (S j))).
    + ring.
    + intros l _. unfold lower_part, upper_part. reflexivity.
  - intros i Hi. destruct i as [|i]; [lia|]. cbn [Nat.eqb]. change (tadd ?a ?b) with (a + b). change (tmul ?a ?b) with (a * b). rewrite PS, P0. rewrite FloatProofs3.rsum_zero; [change (@t0 R ops_R) with 0; ring|]. intros l _. unfold upper_part. cbn [Nat.leb]. change (@t0 R ops_R) with 0. ring.
Qed.
(** Multiplication without underflow. *)
Lemma least_normal_eq : bpow radix2 (-1022) = least_normal. Proof. apply bpow2_inv. reflexivity. Qed.
Lemma mul_normal x y : finite (f_mul x y) -> least_normal < Rabs (val (f_mul x y)) -> Rabs (val (f_mul x y) - val x * val y) <= uro * Rabs (val x * val y).
Proof.
  intros F H. rewrite (mul_rnd x y F) in *. set (z := val x * val y) in *. rewrite <- least_normal_eq in H.
  assert (Hz : bpow radix2 (-1022) <= Rabs z).
  { destruct (Rle_or_lt (bpow radix2 (-1022)) (Rabs z)) as [L|L]; [exact L|]. exfalso. apply (Rlt_not_le _ _ H). rewrite fex_flt. apply abs_round_le_generic; [typeclasses eauto|typeclasses eauto|apply generic_format_bpow; unfold FLT_exp; lia|lra]. }
  rewrite fex_flt. change (round_mode mode_NE) with (Znearest (fun z => negb (Z.even z))). rewrite <- uro_eq. apply relative_error_N_FLT; [reflexivity|exact Hz].
Qed.
Lemma one_mul y : finite (f_mul f_one y) -> val (f_mul f_one y) = val y.
Proof. intros F. rewrite (mul_rnd _ _ F), val_one, Rmult_1_l. rewrite fex_flt. apply round_generic; [typeclasses eauto|apply val_format]. Qed.
Definition fprod (d : nat -> binary64) (k : nat) : binary64 := product k d.
Lemma rproduct_S k (f : nat -> R) : product (S k) f = product k f * f k. Proof. reflexivity. Qed.
Lemma fprod_S k d : fprod d (S k) = f_mul (fprod d k) (d k). Proof. reflexivity. Qed.
Lemma prod_err (d : nat -> binary64) n : finite (fprod d n) -> (forall k, (0 < k <= n)%nat -> least_normal < Rabs (val (fprod d k))) ->
  (forall k, (k < n)%nat -> finite (d k)) /\ Rabs (val (fprod d n) - product n (fun i => val (d i))) <= gam (n - 1) * Rabs (product n (fun i => val (d i))).
Proof.
  induction n as [|n IH]; intros F N.
  - split; [lia|]. cbn [product fprod]. unfold fprod. cbn [product]. change (@t1 R ops_R) with 1. change (@t1 binary64 ops_f64) with f_one. rewrite val_one. replace (1 - 1) with 0 by ring. rewrite Rabs_R0. apply Rmult_le_pos; [apply gam_pos|apply Rabs_pos].
  - rewrite fprod_S in F. destruct (mul_fin _ _ F) as [F1 F2]. destruct (IH F1 ltac:(intros; apply N; lia)) as (FF & E). split; [intros k Hk; destruct (Nat.eq_dec k n) as [->|]; [exact F2|apply FF; lia]|].
    rewrite fprod_S, rproduct_S. destruct n as [|n].
    + unfold fprod in *. cbn [product] in *. change (@t1 R ops_R) with 1 in *. change (@t1 binary64 ops_f64) with f_one in *. rewrite (one_mul _ F). replace (val (d 0%nat) - 1 * val (d 0%nat)) with 0 by ring. rewrite Rabs_R0. apply Rmult_le_pos; [apply gam_pos|apply Rabs_pos].
    + replace (S (S n) - 1)%nat with (S n) by lia. replace (S n - 1)%nat with n in E by lia. pose proof (mul_normal _ _ F) as M. rewrite <- fprod_S in M. specialize (M (N (S (S n)) ltac:(lia))). rewrite fprod_S in M.
      set (p := val (fprod d (S n))) in *. set (q := val (d (S n))) in *. set (Q := product (S n) (fun i => val (d i))) in *. rewrite gam_S. rewrite (Rabs_mult Q q).
      assert (T1 : Rabs (p * q - Q * q) <= gam n * Rabs Q * Rabs q) by (replace (p * q - Q * q) with ((p - Q) * q) by ring; rewrite Rabs_mult; apply Rmult_le_compat_r; [apply Rabs_pos|exact E]).
      assert (T2 : Rabs (p * q) <= Rabs Q * Rabs q + gam n * Rabs Q * Rabs q) by (pose proof (abs_le_add (p * q) (Q * q)) as T; rewrite (Rabs_mult Q q) in T; lra).
      pose proof (abs_split (val (f_mul (fprod d (S n)) (d (S n)))) (p * q) (Q * q)) as T3. pose proof uro_pos as U.
      assert (uro * Rabs (p * q) <= uro * (Rabs Q * Rabs q + gam n * Rabs Q * Rabs q)) by (apply Rmult_le_compat_l; lra). lra.
Qed.

(** Range: products of moderate numbers do not overflow. *)
Lemma mult_format (k : Z) e : (Z.abs k <= 2 ^ 53)%Z -> (-1074 <= e)%Z -> generic_format radix2 (FLT_exp (-1074) 53) (IZR k * bpow radix2 e).
Proof.
  intros Hk He. destruct (Z.eq_dec (Z.abs k) (2 ^ 53)) as [Q|Q].
  - destruct (Z.abs_eq_or_opp k) as [K|K].
    + rewrite K in Q. rewrite Q. change (IZR (2 ^ 53)) with (bpow radix2 53). rewrite <- bpow_plus. apply generic_format_bpow. unfold FLT_exp. lia.
    + assert (k = - 2 ^ 53)%Z as -> by lia. rewrite opp_IZR. change (IZR (2 ^ 53)) with (bpow radix2 53). rewrite <- Ropp_mult_distr_l, <- bpow_plus. apply generic_format_opp, generic_format_bpow. unfold FLT_exp. lia.
  - apply generic_format_FLT. exists (Float radix2 k e); [reflexivity|cbn; lia|exact He].
Qed.
Definition big (e : Z) : R := bpow radix2 e.
Lemma mul_ok x y a : finite x -> finite y -> Rabs (val x * val y) <= bpow radix2 a -> (-1074 <= a < 1024)%Z -> finite (f_mul x y) /\ Rabs (val (f_mul x y)) <= bpow radix2 a.
Proof.
  intros Fx Fy H Ha. pose proof (Bmult_correct 53 1024 _ _ mode_NE x y) as B.
  assert (G : Rabs (rnd (val x * val y)) <= bpow radix2 a) by (rewrite fex_flt; apply abs_round_le_generic; [typeclasses eauto|typeclasses eauto|apply generic_format_bpow; unfold FLT_exp; lia|exact H]).
  rewrite Rlt_bool_true in B; [|eapply Rle_lt_trans; [exact G|apply bpow_lt; lia]]. destruct B as (B1 & B2 & _). unfold finite, f_mul, val. rewrite B2. split; [unfold finite in *; now rewrite Fx, Fy|]. rewrite B1. exact G.
Qed.
Lemma add_ok x y (m : Z) e : finite x -> finite y -> Rabs (val x + val y) <= IZR m * bpow radix2 e -> (0 <= m <= 2 ^ 53)%Z -> (-1074 <= e)%Z -> IZR m * bpow radix2 e < bpow radix2 1024 ->
  finite (f_add x y) /\ Rabs (val (f_add x y)) <= IZR m * bpow radix2 e.
Proof.
  intros Fx Fy H Hm He Hlt. pose proof (Bplus_correct 53 1024 _ _ mode_NE x y Fx Fy) as B.
  assert (G : Rabs (rnd (val x + val y)) <= IZR m * bpow radix2 e) by (rewrite fex_flt; apply abs_round_le_generic; [typeclasses eauto|typeclasses eauto|apply mult_format; lia|exact H]).
  rewrite Rlt_bool_true in B; [|eapply Rle_lt_trans; [exact G|exact Hlt]]. destruct B as (B1 & B2 & _). unfold finite, f_add, val. rewrite B2. split; [reflexivity|]. rewrite B1. exact G.
Qed.
Lemma dot_finite n (x y : nat -> binary64) : (Z.of_nat n <= 2 ^ 23)%Z ->
  (forall l, (l < n)%nat -> finite (x l) /\ finite (y l) /\ Rabs (val (x l)) <= 2 ^ 500 /\ Rabs (val (y l)) <= 2 ^ 500) ->
  finite (sum n (fun l => tmul (x l) (y l))) /\ Rabs (val (sum n (fun l => tmul (x l) (y l)))) <= INR n * 2 ^ 1000.
Proof.
  intros Hn H. assert (P1000 : bpow radix2 1000 = 2 ^ 1000) by (rewrite bpow_powerRZ, pow_powerRZ; reflexivity). rewrite <- P1000, INR_IZR_INZ.
  induction n as [|n IH].
  - cbn [sum]. change (@t0 binary64 ops_f64) with f_zero. split; [reflexivity|]. rewrite val_zero, Rabs_R0. cbn. lra.
  - destruct IH as (F & B); [lia|intros; apply H; lia|]. cbn [sum]. change (tadd ?a ?b) with (f_add a b). change (@tmul binary64 ops_f64 (x n) (y n)) with (f_mul (x n) (y n)).
    destruct (H n ltac:(lia)) as (Fx & Fy & Bx & By).
    destruct (mul_ok (x n) (y n) 1000 Fx Fy) as (Fm & Bm); [rewrite Rabs_mult; replace (bpow radix2 1000) with (2 ^ 500 * 2 ^ 500) by (rewrite P1000, <- pow_add; reflexivity); apply Rmult_le_compat; try apply Rabs_pos; assumption|lia|].
    apply add_ok; try assumption; try lia.
    + eapply Rle_trans; [apply Rabs_triang|]. replace (Z.of_nat (S n)) with (Z.of_nat n + 1)%Z by lia. rewrite plus_IZR. lra.
    + apply Rle_lt_trans with (IZR (2 ^ 23) * bpow radix2 1000); [apply Rmult_le_compat_r; [apply bpow_ge_0|apply IZR_le; lia]|]. change (IZR (2 ^ 23)) with (bpow radix2 23). rewrite <- bpow_plus. apply bpow_lt. lia.
Qed.

(** [lu], [det] and [solve] do not panic. *)
Lemma lu_total n (A : nat -> nat -> binary64) : (0 < n)%nat -> lu (mk n n A) = Some (mk n n (lue A (n - 1))).
Proof.
  intros Hn. unfold lu. cbn [nr nc mk]. rewrite Nat.eqb_refl. replace (n =? 0)%nat with false by lia. unfold rng. replace (n - 1 - 0)%nat with (n - 1)%nat by lia. fold (mk n n A).
  assert (G : forall m, (m <= n - 1)%nat -> foldM (lu_step n) (seq 0 m) (mk n n A) = Some (mk n n (lue A m))); [|now apply G].
  induction m as [|m IH]; intros Hm; [reflexivity|]. rewrite seq_S, foldM_app, IH by lia. cbn [obind foldM Nat.add]. rewrite step_some by (lia || reflexivity). cbn [obind]. now rewrite Nat.add_1_r.
Qed.
Lemma solve_total n m (A b : nat -> nat -> binary64) : (0 < n)%nat -> (0 < m)%nat -> exists X, solve (mk n n A) (mk n m b) = Some X.
Proof.
  intros Hn Hm. unfold solve. cbn [nr nc mk]. rewrite !Nat.eqb_refl. cbn [andb]. fold (mk n n A) (mk n m b). rewrite lu_total by exact Hn. cbn [obind]. set (F := lue A (n - 1)).
  destruct (forward_raw n m F b Hm) as (y & _ & EF). rewrite EF. cbn [obind]. rewrite mget_in by lia. cbn [obind]. rewrite mget_in by lia. cbn [obind]. unfold fdiv at 1. cbn [teqb fops_f64 obind]. rewrite mset_mk by lia. cbn [obind]. unfold rng. replace (n - 1 - 0)%nat with (n - 1)%nat by lia.
  assert (G : forall k, (k + 1 <= n)%nat -> forall b', exists X, foldM (backward_step n (mk n n F)) (rev (seq 0 k)) (mk n m b') = Some X).
  { induction k as [|k IH]; intros Hk b'; [eexists; reflexivity|]. rewrite rev_seq1. cbn [foldM].
    assert (exists B, backward_step n (mk n n F) (mk n m b') k = Some (mk n m B)) as (B & ->).
    { unfold backward_step. rewrite mget_in by lia. cbn [obind]. rewrite !msub_view_mk by lia. cbn [obind]. replace (k + 1 - k)%nat with 1%nat by lia. replace (1 - 0)%nat with 1%nat by lia. rewrite mdot_mk. cbn [obind]. rewrite mset_mk by lia. cbn [obind]. rewrite mget_in by lia. cbn [obind]. rewrite mget_in by lia. cbn [obind]. unfold fdiv. cbn [teqb fops_f64 obind]. rewrite mset_mk by lia. eexists. reflexivity. }
    cbn [obind]. apply IH. lia. }
  apply G. lia.
Qed.
