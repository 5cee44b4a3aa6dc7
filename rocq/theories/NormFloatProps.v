(** Property C146: the norms of matrices and constant vectors at the type [f64], with rounding. *)
From Coq Require Import ZArith Reals Lra Lia List Arith Bool.
From Flocq Require Import Core IEEE754.BinarySingleNaN.
From Verif Require Import PidModel MatModel MatSpec MatProofs NumModel NumSpec HouseProps RankModel LuModel FloatModel FloatSpec FloatProofs FloatProofs2 FloatProofs3 FloatProofs5 NormFloatModel NormFloatProofs.
Import ListNotations.
Open Scope R_scope.

(** No entry is not-a-number. *)
Definition no_nan (M : mat binary64) : Prop := forall i j, (i < nr M)%nat -> (j < nc M)%nat -> is_nan (ent M i j) = false.

Lemma und_nonneg k : 0 <= und k. Proof. apply und_pos. Qed.
Lemma f_sum_seq (f : nat -> binary64) n : f_sum (map f (seq 0 n)) = sum n f.
Proof. exact (fold_sum f n). Qed.
Lemma dot_root n (x : nat -> binary64) : finite (f_sqrt (sum n (fun l => f_mul (x l) (x l)))) -> (forall l, (l < n)%nat -> finite (x l)) /\
  Rabs (val (f_sqrt (sum n (fun l => f_mul (x l) (x l)))) - norm2 n (fun l => val (x l))) <= gam (n + 1) * norm2 n (fun l => val (x l)) + (1 + uro) * sqrt (und n).
Proof.
  intros F. destruct (sqrt_fin _ F) as [Fs _]. destruct (dot_err n x x Fs) as (FF & E). split; [intros l Hl; now apply FF|].
  assert (Q : forall l, Rabs (val (x l) * val (x l)) = val (x l) * val (x l)) by (intros l; apply Rabs_pos_eq, Rle_0_sqr).
  rewrite (FloatProofs2.sum_ext n (fun l => Rabs (val (x l) * val (x l))) (fun l => val (x l) * val (x l))) in E by (intros; apply Q).
  unfold norm2, inner. apply root_err; [exact F|apply rsum_pos; intros; apply Rle_0_sqr|apply und_pos|exact E].
Qed.
(** [two_norm] of a matrix with one column. *)
Theorem C146_two_norm : forall M s, wf M -> f_two_norm M = Some s -> finite s ->
  nc M = 1%nat /\ finite_mat M /\
  Rabs (val s - norm2 (nr M) (column (rent M) 0)) <= gam (nr M + 1) * norm2 (nr M) (column (rent M) 0) + (1 + uro) * sqrt (und (nr M)).
Proof.
  intros M s W E F. unfold f_two_norm in E. destruct (nc M =? 1)%nat eqn:E1; [|discriminate]. apply Nat.eqb_eq in E1. split; [exact E1|].
  rewrite (omapM_some _ (fun i => f_mul (ent M i 0) (ent M i 0))) in E. 2: { intros i Hi. apply in_seq in Hi. rewrite (wf_eq_mk M W), mget_in by lia. rewrite ent_mk by lia. reflexivity. }
  cbn [obind] in E. rewrite f_sum_seq in E. injection E as <-. destruct (dot_root (nr M) (fun i => ent M i 0%nat) F) as (FF & B). split; [intros i j Hi Hj; replace j with 0%nat by lia; now apply FF|]. exact B.
Qed.
Print Assumptions C146_two_norm.

Lemma grid_err n m (x : nat -> nat -> binary64) : finite (sum n (fun i => sum m (fun j => f_mul (x i j) (x i j)))) ->
  (forall i j, (i < n)%nat -> (j < m)%nat -> finite (x i j)) /\
  Rabs (val (sum n (fun i => sum m (fun j => f_mul (x i j) (x i j)))) - sum n (fun i => sum m (fun j => val (x i j) * val (x i j)))) <=
  gam (m + n) * sum n (fun i => sum m (fun j => val (x i j) * val (x i j))) + INR n * (1 + uro) ^ n * und m.
Proof.
  intros F. destruct (sum_err n _ F) as (FF & E). set (s := fun i => sum m (fun j => f_mul (x i j) (x i j))) in *. set (S1 := fun i => sum m (fun j => val (x i j) * val (x i j))) in *.
  assert (D : forall i, (i < n)%nat -> (forall j, (j < m)%nat -> finite (x i j)) /\ Rabs (val (s i) - S1 i) <= gam m * S1 i + und m).
  { intros i Hi. destruct (dot_err m (x i) (x i) (FF i Hi)) as (G & K). split; [intros j Hj; now apply G|].
    rewrite (FloatProofs2.sum_ext m (fun l => Rabs (val (x i l) * val (x i l))) (fun l => val (x i l) * val (x i l))) in K by (intros; apply Rabs_pos_eq, Rle_0_sqr). exact K. }
  split; [intros i j Hi Hj; now apply D|].
  assert (SP : forall i, 0 <= S1 i) by (intros i; apply rsum_pos; intros; apply Rle_0_sqr). assert (TP : 0 <= sum n S1) by (apply rsum_pos; intros; apply SP).
  assert (E1 : Rabs (sum n (fun i => val (s i)) - sum n S1) <= gam m * sum n S1 + INR n * und m).
  { replace (sum n (fun i => val (s i)) - sum n S1) with (sum n (fun i => val (s i) - S1 i)).
    2: { rewrite (FloatProofs2.sum_ext n (fun i => val (s i) - S1 i) (fun i => val (s i) + (-1) * S1 i)) by (intros; ring). rewrite rsum_add, rsum_mul. ring. }
    eapply Rle_trans; [apply rsum_abs|]. eapply Rle_trans; [apply rsum_le; intros i Hi; apply (proj2 (D i Hi))|]. rewrite rsum_add, rsum_mul. apply Rplus_le_compat_l. clear. induction n as [|n IH]; [cbn; lra|]. rewrite rsum_S, S_INR. lra. }
  assert (E2 : sum n (fun i => Rabs (val (s i))) <= (1 + gam m) * sum n S1 + INR n * und m).
  { apply Rle_trans with (sum n (fun i => (1 + gam m) * S1 i + und m)).
    - apply rsum_le. intros i Hi. pose proof (proj2 (D i Hi)) as K. pose proof (abs_le_add (val (s i)) (S1 i)) as T. rewrite (Rabs_pos_eq (S1 i) (SP i)) in T. lra.
    - rewrite rsum_add, rsum_mul. apply Rplus_le_compat_l. clear. induction n as [|n IH]; [cbn; lra|]. rewrite rsum_S, S_INR. lra. }
  replace (val (sum n s) - sum n S1) with ((val (sum n s) - sum n (fun i => val (s i))) + (sum n (fun i => val (s i)) - sum n S1)) by ring. eapply Rle_trans; [apply Rabs_triang|].
  assert (E3 : gam n * sum n (fun i => Rabs (val (s i))) <= gam n * ((1 + gam m) * sum n S1 + INR n * und m)) by (apply Rmult_le_compat_l; [apply gam_pos|exact E2]).
  replace (gam (m + n)) with (gam n * (1 + gam m) + gam m) by (unfold gam; rewrite pow_add; ring). replace ((1 + uro) ^ n) with (1 + gam n) by (unfold gam; ring).
  change (Rabs (val (sum n s) - sum n (fun i => val (s i))) <= gam n * sum n (fun i => Rabs (val (s i)))) in E. eapply Rle_trans; [apply Rplus_le_compat; [eapply Rle_trans; [exact E|exact E3]|exact E1]|]. apply Req_le. ring.
Qed.
(** [frobenius_norm]. *)
Theorem C146_frobenius_norm : forall M s, wf M -> f_frobenius_norm M = Some s -> finite s ->
  finite_mat M /\
  Rabs (val s - sqrt (sum (nr M) (fun i => sum (nc M) (fun j => rent M i j * rent M i j)))) <=
  gam (nr M + nc M + 1) * sqrt (sum (nr M) (fun i => sum (nc M) (fun j => rent M i j * rent M i j))) + (1 + uro) * sqrt (INR (nr M) * (1 + uro) ^ nr M * und (nc M)).
Proof.
  intros M s W E F. unfold f_frobenius_norm in E.
  rewrite (omapM_some _ (fun i => sum (nc M) (fun j => f_mul (ent M i j) (ent M i j)))) in E.
  2: { intros i Hi. apply in_seq in Hi. rewrite (omapM_some _ (fun j => f_mul (ent M i j) (ent M i j))). 2: { intros j Hj. apply in_seq in Hj. rewrite (wf_eq_mk M W), mget_in by lia. rewrite ent_mk by lia. reflexivity. } cbn [obind]. now rewrite f_sum_seq. }
  cbn [obind] in E. rewrite f_sum_seq in E. injection E as <-. destruct (sqrt_fin _ F) as [Fs _]. destruct (grid_err (nr M) (nc M) (ent M) Fs) as (FF & B).
  split; [exact FF|]. rewrite (Nat.add_comm (nr M) (nc M)). apply root_err; [exact F|apply rsum_pos; intros; apply rsum_pos; intros; apply Rle_0_sqr| |exact B].
  apply Rmult_le_pos; [|apply und_pos]. apply Rmult_le_pos; [apply pos_INR|]. pose proof (pow_ge1 (nr M)). lra.
Qed.
Print Assumptions C146_frobenius_norm.

Lemma largest_near n (f g : nat -> R) a b c : 0 <= c -> (forall i, (i < n)%nat -> 0 <= g i) -> largest n f a -> largest n g b ->
  (forall i, (i < n)%nat -> Rabs (f i - g i) <= c * g i) -> Rabs (a - b) <= c * b.
Proof.
  intros Hc Hg (Ua & La) (Ub & Lb) H. destruct La as [(-> & ->)|(i & Hi & ->)].
  - destruct Lb as [(_ & ->)|(j & Hj & _)]; [rewrite Rminus_0_r, Rabs_R0; lra|lia].
  - destruct Lb as [(-> & _)|(j & Hj & ->)]; [lia|]. apply Rabs_le. split.
    + pose proof (Rabs_le_inv _ _ (H j Hj)). pose proof (Ua j Hj). lra.
    + pose proof (Rabs_le_inv _ _ (H i Hi)). pose proof (Ub i Hi). assert (c * g i <= c * g j) by now apply Rmult_le_compat_l. lra.
Qed.
Lemma max_err n m (x : nat -> nat -> binary64) : (forall i j, (i < n)%nat -> (j < m)%nat -> is_nan (x i j) = false) ->
  finite (f_fold_max (map (fun i => sum m (fun j => f_abs (x i j))) (seq 0 n))) ->
  (forall i j, (i < n)%nat -> (j < m)%nat -> finite (x i j)) /\
  exists b, largest n (fun i => sum m (fun j => Rabs (val (x i j)))) b /\ Rabs (val (f_fold_max (map (fun i => sum m (fun j => f_abs (x i j))) (seq 0 n))) - b) <= gam m * b.
Proof.
  intros N F. unfold f_fold_max in *. set (s := fun i => sum m (fun j => f_abs (x i j))) in *.
  destruct (fold_max_fin (map s (seq 0 n)) f_zero) as (_ & FF & E); [split; reflexivity| |exact F|].
  { intros y Hy. apply in_map_iff in Hy. destruct Hy as (i & <- & Hi). apply in_seq in Hi. apply upper_sum. intros j Hj. apply upper_abs, N; lia. }
  rewrite map_map in E.
  assert (D : forall i, (i < n)%nat -> (forall j, (j < m)%nat -> finite (x i j)) /\ Rabs (val (s i) - sum m (fun j => Rabs (val (x i j)))) <= gam m * sum m (fun j => Rabs (val (x i j))) /\ 0 <= val (s i)).
  { intros i Hi. assert (Fi : finite (s i)) by (apply FF, in_map, in_seq; lia). destruct (sum_err m _ Fi) as (G & K). split; [intros j Hj; apply abs_fin; now apply G|]. split.
    - rewrite (FloatProofs2.sum_ext m (fun l => val (f_abs (x i l))) (fun j => Rabs (val (x i j)))) in K by (intros; apply abs_val).
      rewrite (FloatProofs2.sum_ext m (fun l => Rabs (val (f_abs (x i l)))) (fun j => Rabs (val (x i j)))) in K by (intros; rewrite abs_val; apply Rabs_Rabsolu). exact K.
    - apply sum_pos; [exact Fi|]. intros j Hj. rewrite abs_val. apply Rabs_pos. }
  split; [intros i j Hi Hj; now apply D|]. rewrite E. eexists. split; [apply fold_max_largest; intros; apply rsum_pos; intros; apply Rabs_pos|].
  eapply largest_near; [apply gam_pos| |apply (fold_max_largest (fun i => val (s i)) n); intros; now apply D|apply fold_max_largest; intros; apply rsum_pos; intros; apply Rabs_pos|].
  - intros i Hi. apply rsum_pos; intros; apply Rabs_pos.
  - intros i Hi. now apply D.
Qed.
(** [one_norm], the largest column sum, and [inf_norm], the largest row sum. *)
Theorem C146_one_norm : forall M s, wf M -> no_nan M -> f_one_norm M = Some s -> finite s ->
  finite_mat M /\ exists x, largest (nc M) (fun j => sum (nr M) (fun i => Rabs (rent M i j))) x /\ Rabs (val s - x) <= gam (nr M) * x.
Proof.
  intros M s W N E F. unfold f_one_norm in E.
  rewrite (omapM_some _ (fun j => sum (nr M) (fun i => f_abs (ent M i j)))) in E.
  2: { intros j Hj. apply in_seq in Hj. rewrite (omapM_some _ (fun i => f_abs (ent M i j))). 2: { intros i Hi. apply in_seq in Hi. rewrite (wf_eq_mk M W), mget_in by lia. rewrite ent_mk by lia. reflexivity. } cbn [obind]. now rewrite f_sum_seq. }
  cbn [obind] in E. injection E as <-. destruct (max_err (nc M) (nr M) (fun j i => ent M i j)) as (FF & B); [intros j i Hj Hi; now apply N|exact F|].
  split; [intros i j Hi Hj; now apply FF|exact B].
Qed.
Print Assumptions C146_one_norm.
Theorem C146_inf_norm : forall M s, wf M -> no_nan M -> f_inf_norm M = Some s -> finite s ->
  finite_mat M /\ exists x, largest (nr M) (fun i => sum (nc M) (fun j => Rabs (rent M i j))) x /\ Rabs (val s - x) <= gam (nc M) * x.
Proof.
  intros M s W N E F. unfold f_inf_norm in E.
  rewrite (omapM_some _ (fun i => sum (nc M) (fun j => f_abs (ent M i j)))) in E.
  2: { intros i Hi. apply in_seq in Hi. rewrite (omapM_some _ (fun j => f_abs (ent M i j))). 2: { intros j Hj. apply in_seq in Hj. rewrite (wf_eq_mk M W), mget_in by lia. rewrite ent_mk by lia. reflexivity. } cbn [obind]. now rewrite f_sum_seq. }
  cbn [obind] in E. injection E as <-. destruct (max_err (nr M) (nc M) (ent M)) as (FF & B); [exact N|exact F|]. split; [exact FF|exact B].
Qed.
Print Assumptions C146_inf_norm.

Lemma map_seq_nth {A B} (f : A -> B) (d : A) (l : list A) : map f l = map (fun i => f (nth i l d)) (seq 0 (length l)).
Proof.
  induction l as [|x l IH]; [reflexivity|]. cbn [map length seq nth]. f_equal. rewrite IH at 1. rewrite <- seq_shift, map_map. reflexivity.
Qed.
(** [ConstVector::dot] and [ConstVector::two_norm]. *)
Theorem C146_const_dot : forall a b n, length a = n -> length b = n -> finite (f_cv_dot a b) ->
  (forall i, (i < n)%nat -> finite (nth i a f_zero) /\ finite (nth i b f_zero)) /\
  Rabs (val (f_cv_dot a b) - sum n (fun i => val (nth i a f_zero) * val (nth i b f_zero))) <= gam n * sum n (fun i => Rabs (val (nth i a f_zero)) * Rabs (val (nth i b f_zero))) + und n.
Proof.
  intros a b n La Lb F. unfold f_cv_dot in *.
  assert (Q : f_sum (map (fun p => f_mul (fst p) (snd p)) (combine a b)) = sum n (fun i => f_mul (nth i a f_zero) (nth i b f_zero))).
  { rewrite (map_seq_nth _ (f_zero, f_zero)), combine_length, La, Lb, Nat.min_id, <- f_sum_seq. f_equal. apply map_ext. intros i. rewrite combine_nth by congruence. reflexivity. }
  rewrite Q in *. destruct (dot_err n (fun i => nth i a f_zero) (fun i => nth i b f_zero) F) as (FF & B). split; [exact FF|].
  rewrite (FloatProofs2.sum_ext n (fun i => Rabs (val (nth i a f_zero)) * Rabs (val (nth i b f_zero))) (fun i => Rabs (val (nth i a f_zero) * val (nth i b f_zero)))) by (intros; now rewrite Rabs_mult). exact B.
Qed.
Print Assumptions C146_const_dot.
Theorem C146_const_two_norm : forall a n, length a = n -> finite (f_cv_two_norm a) ->
  (forall i, (i < n)%nat -> finite (nth i a f_zero)) /\
  Rabs (val (f_cv_two_norm a) - norm2 n (fun i => val (nth i a f_zero))) <= gam (n + 1) * norm2 n (fun i => val (nth i a f_zero)) + (1 + uro) * sqrt (und n).
Proof.
  intros a n La F. unfold f_cv_two_norm in *. rewrite (map_seq_nth _ f_zero), La, f_sum_seq in *. apply (dot_root n (fun i => nth i a f_zero) F).
Qed.
Print Assumptions C146_const_two_norm.

Lemma sumsq_sqrt n (x : nat -> binary64) : (Z.of_nat n <= 2 ^ 23)%Z -> (forall l, (l < n)%nat -> finite (x l) /\ Rabs (val (x l)) <= 2 ^ 500) -> finite (f_sqrt (sum n (fun l => f_mul (x l) (x l)))).
Proof.
  intros Hn H. destruct (dot_finite n x x Hn) as (F & _); [intros l Hl; destruct (H l Hl); tauto|]. apply sqrt_ok; [exact F|]. apply sum_pos; [exact F|]. intros. apply mul_self_pos.
Qed.
(** No overflow and no square root of a negative number: at most 2^23 entries of size at most 2^500 have a finite [two_norm]. *)
Theorem C146_no_overflow : forall M, wf M -> nc M = 1%nat -> (Z.of_nat (nr M) <= 2 ^ 23)%Z -> finite_mat M -> (forall i, (i < nr M)%nat -> Rabs (rent M i 0) <= 2 ^ 500) ->
  exists s, f_two_norm M = Some s /\ finite s.
Proof.
  intros M W C Hn F H. unfold f_two_norm. rewrite C, Nat.eqb_refl.
  rewrite (omapM_some _ (fun i => f_mul (ent M i 0) (ent M i 0))). 2: { intros i Hi. apply in_seq in Hi. rewrite (wf_eq_mk M W), mget_in by lia. rewrite ent_mk by lia. reflexivity. }
  cbn [obind]. eexists. split; [reflexivity|]. rewrite f_sum_seq. apply sumsq_sqrt; [exact Hn|]. intros l Hl. split; [apply F; lia|now apply H].
Qed.
Print Assumptions C146_no_overflow.
Theorem C146_const_no_overflow : forall a, (Z.of_nat (length a) <= 2 ^ 23)%Z -> (forall i, (i < length a)%nat -> finite (nth i a f_zero) /\ Rabs (val (nth i a f_zero)) <= 2 ^ 500) -> finite (f_cv_two_norm a).
Proof. intros a Hn H. unfold f_cv_two_norm. rewrite (map_seq_nth _ f_zero), f_sum_seq. now apply sumsq_sqrt. Qed.
Print Assumptions C146_const_no_overflow.

(** [2^e] as [f64]. *)
Definition f_pow2 (e : Z) : binary64 := binary_normalize 53 1024 prec_gt_0_53 prec_lt_emax_53 mode_NE 1 e false.
(** Refuted: the hypothesis that no entry is not-a-number is needed, [one_norm] and [inf_norm] of a matrix whose only entry is not a number are 0;
    and the squares leave the range of [f64] long before the norm does: the norm of [2^600] is infinite and the norm of [2^-600] is 0. *)
Theorem C146_nan_refuted : f_one_norm (mk 1 1 (fun _ _ => B754_nan)) = Some f_zero /\ f_inf_norm (mk 1 1 (fun _ _ => B754_nan)) = Some f_zero.
Proof. split; reflexivity. Qed.
Print Assumptions C146_nan_refuted.
Theorem C146_range_refuted :
  finite (f_pow2 600) /\ val (f_pow2 600) = bpow radix2 600 /\ f_two_norm (mk 1 1 (fun _ _ => f_pow2 600)) = Some (B754_infinity false) /\
  finite (f_pow2 (-600)) /\ val (f_pow2 (-600)) = bpow radix2 (-600) /\ f_two_norm (mk 1 1 (fun _ _ => f_pow2 (-600))) = Some f_zero.
Proof.
  assert (V : forall e, (-1074 <= e < 1024)%Z -> val (f_pow2 e) = bpow radix2 e).
  { intros e He. pose proof (binary_normalize_correct 53 1024 prec_gt_0_53 prec_lt_emax_53 mode_NE 1 e false) as H. cbn zeta in H.
    assert (Q : round radix2 (SpecFloat.fexp 53 1024) (round_mode mode_NE) (F2R (Float radix2 1 e)) = bpow radix2 e). { unfold F2R. cbn [Fnum Fexp]. rewrite Rmult_1_l. apply round_generic; [typeclasses eauto|]. change (SpecFloat.fexp 53 1024) with fex. rewrite fex_flt. apply generic_format_bpow. unfold FLT_exp. lia. }
    rewrite Q, Rabs_pos_eq, Rlt_bool_true in H; [now destruct H|apply bpow_lt; lia|apply bpow_ge_0]. }
  split; [vm_compute; reflexivity|]. split; [apply V; lia|]. split; [vm_compute; reflexivity|]. split; [vm_compute; reflexivity|]. split; [apply V; lia|]. vm_compute. reflexivity.
Qed.
Print Assumptions C146_range_refuted.

(** The hypotheses are met: the vector (3, 4). *)
Definition f_int (z : Z) : binary64 := binary_normalize 53 1024 prec_gt_0_53 prec_lt_emax_53 mode_NE z 0 false.
Definition f_34 : mat binary64 := mk 2 1 (fun i _ => if (i =? 0)%nat then f_int 3 else f_int 4).
Example C146_nontrivial : wf f_34 /\ no_nan f_34 /\
  (match f_two_norm f_34 with Some s => f_leb s (f_int 5) && f_leb (f_int 5) s | None => false end) = true /\
  (match f_one_norm f_34 with Some s => f_leb s (f_int 7) && f_leb (f_int 7) s | None => false end) = true /\
  (match f_inf_norm f_34 with Some s => f_leb s (f_int 4) && f_leb (f_int 4) s | None => false end) = true /\
  (match f_frobenius_norm f_34 with Some s => f_leb s (f_int 5) && f_leb (f_int 5) s | None => false end) = true /\
  f_leb (f_cv_dot [f_int 1; f_int 2] [f_int 3; f_int 4]) (f_int 11) = true /\ f_leb (f_int 5) (f_cv_two_norm [f_int 3; f_int 4]) = true.
Proof.
  split; [apply wf_mk|]. split; [intros [|[|i]] [|j] Hi Hj; cbn in Hi, Hj; try lia; reflexivity|]. repeat split; vm_compute; reflexivity.
Qed.
