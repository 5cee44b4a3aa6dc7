(** Rounding errors of sums of products and of [lu]. *)
From Coq Require Import ZArith Reals Lra Lia List Arith Bool.
From Verif Require Import PidModel MatModel MatSpec MatProofs NumModel RankModel LuModel LuSpec FloatModel FloatSpec FloatProofs FloatProofs2.
Open Scope R_scope.

(** Sums of real numbers. *)
Lemma rsum_S n (f : nat -> R) : sum (S n) f = sum n f + f n. Proof. reflexivity. Qed.
Lemma rsum_le n (f g : nat -> R) : (forall i, (i < n)%nat -> f i <= g i) -> sum n f <= sum n g.
Proof. induction n as [|n IH]; intros H; [apply Rle_refl|]. rewrite !rsum_S. apply Rplus_le_compat; [apply IH; intros; apply H; lia|apply H; lia]. Qed.
Lemma rsum_pos n (f : nat -> R) : (forall i, (i < n)%nat -> 0 <= f i) -> 0 <= sum n f.
Proof. induction n as [|n IH]; intros H; [apply Rle_refl|]. rewrite rsum_S. apply Rplus_le_le_0_compat; [apply IH; intros; apply H; lia|apply H; lia]. Qed.
Lemma rsum_abs n (f : nat -> R) : Rabs (sum n f) <= sum n (fun i => Rabs (f i)).
Proof. induction n as [|n IH]; [cbn; rewrite Rabs_R0; apply Rle_refl|]. rewrite !rsum_S. eapply Rle_trans; [apply Rabs_triang|]. lra. Qed.
Lemma rsum_mul n c (f : nat -> R) : sum n (fun i => c * f i) = c * sum n f.
Proof. induction n as [|n IH]; [cbn; ring|]. rewrite !rsum_S, IH. ring. Qed.
Lemma rsum_add n (f g : nat -> R) : sum n (fun i => f i + g i) = sum n f + sum n g.
Proof. induction n as [|n IH]; [cbn; ring|]. rewrite !rsum_S, IH. ring. Qed.
Lemma rsum_zero n (f : nat -> R) : (forall i, (i < n)%nat -> f i = 0) -> sum n f = 0.
Proof. induction n as [|n IH]; intros H; [reflexivity|]. rewrite rsum_S, IH by (intros; apply H; lia). rewrite H by lia. ring. Qed.
Lemma rsum_app n m (f : nat -> R) : sum (n + m) f = sum n f + sum m (fun i => f (n + i)%nat).
Proof. induction m as [|m IH]; [rewrite Nat.add_0_r; cbn; ring|]. rewrite Nat.add_succ_r, !rsum_S, IH. ring. Qed.

(** The error terms. *)
Lemma pow_ge1 k : 1 <= (1 + uro) ^ k.
Proof. pose proof uro_pos. apply pow_R1_Rle. lra. Qed.
Lemma gam_pos k : 0 <= gam k. Proof. pose proof (pow_ge1 k). unfold gam. lra. Qed.
Lemma und_pos k : 0 <= und k.
Proof. pose proof (pow_ge1 k). pose proof tiny_pos. unfold und. apply Rmult_le_pos; [apply Rmult_le_pos; [apply pos_INR|lra]|lra]. Qed.
Lemma gam_S k : gam (S k) = (1 + uro) * gam k + uro. Proof. unfold gam. cbn [pow]. ring. Qed.
Lemma und_S k : und (S k) = (1 + uro) * und k + tiny * (1 + uro) ^ S k. Proof. unfold und. rewrite S_INR. cbn [pow]. ring. Qed.
Lemma gam_le a b : (a <= b)%nat -> gam a <= gam b.
Proof. intros H. unfold gam. pose proof uro_pos. pose proof (Rle_pow (1 + uro) a b ltac:(lra) H). lra. Qed.
Lemma und_le a b : (a <= b)%nat -> und a <= und b.
Proof.
  intros H. induction H as [|b H IH]; [lra|]. rewrite und_S. pose proof uro_pos. pose proof tiny_pos. pose proof (pow_ge1 (S b)). pose proof (und_pos b). nra.
Qed.
Lemma und_S_tiny k : (1 + uro) * und k + tiny <= und (S k).
Proof. rewrite und_S. pose proof tiny_pos. pose proof (pow_ge1 (S k)). nra. Qed.
Lemma und_S_tiny1 k : (1 + uro) * und k + tiny * (1 + uro) <= und (S k).
Proof. rewrite und_S. pose proof tiny_pos. pose proof uro_pos. pose proof (pow_ge1 k). cbn [pow]. apply Rplus_le_compat_l. apply Rmult_le_compat_l; [lra|]. rewrite <- (Rmult_1_r (1 + uro)) at 1. apply Rmult_le_compat_l; lra. Qed.
Lemma gam_1 : gam 1 = uro. Proof. unfold gam. cbn. ring. Qed.
Lemma gam_2 : gam 2 = uro * (1 + uro) + uro. Proof. unfold gam. cbn. ring. Qed.
Lemma und_1 : und 1 = tiny * (1 + uro). Proof. unfold und. cbn. ring. Qed.
(** At sizes that fit in a memory the relative error is about [k] roundings. *)
Lemma gam_linear k : INR k * uro <= / 2 -> gam k <= 2 * INR k * uro.
Proof.
  induction k as [|k IH]; intros H; [cbn; unfold gam; cbn; lra|]. rewrite S_INR in *. pose proof uro_pos. assert (IK : gam k <= 2 * INR k * uro) by (apply IH; nra). rewrite gam_S.
  assert (2 * (INR k * uro) * uro <= uro) by nra. nra.
Qed.

Lemma abs_split a b c : Rabs (a - c) <= Rabs (a - b) + Rabs (b - c).
Proof. replace (a - c) with ((a - b) + (b - c)) by ring. apply Rabs_triang. Qed.
Lemma abs_le_add a b : Rabs a <= Rabs b + Rabs (a - b).
Proof. replace a with (b + (a - b)) at 1 by ring. apply Rabs_triang. Qed.

(** The sum of products computed by [dot]. *)
Lemma dot_err n (x y : nat -> binary64) : finite (sum n (fun l => tmul (x l) (y l))) ->
  (forall l, (l < n)%nat -> finite (x l) /\ finite (y l)) /\
  Rabs (val (sum n (fun l => tmul (x l) (y l))) - sum n (fun l => val (x l) * val (y l))) <= gam n * sum n (fun l => Rabs (val (x l) * val (y l))) + und n.
Proof.
  induction n as [|n IH]; intros F.
  - split; [lia|]. cbn [sum]. change (@t0 R ops_R) with 0. change (val (@t0 binary64 ops_f64)) with 0. rewrite Rminus_0_r, Rabs_R0. unfold gam, und. cbn. lra.
  - cbn [sum] in F. change (finite (f_add (sum n (fun l => tmul (x l) (y l))) (f_mul (x n) (y n)))) in F. rewrite !rsum_S. change (sum (S n) (fun l => tmul (x l) (y l))) with (f_add (sum n (fun l => tmul (x l) (y l))) (f_mul (x n) (y n))).
    set (s := sum n (fun l => tmul (x l) (y l))) in *. set (S := sum n (fun l => val (x l) * val (y l))) in *. set (P := sum n (fun l => Rabs (val (x l) * val (y l)))) in *.
    destruct (add_err _ _ F) as (Fs & Fp & _ & EA). destruct (IH Fs) as (FF & EI). destruct (mul_err _ _ Fp) as (Fx & Fy & EM).
    split; [intros l Hl; destruct (Nat.eq_dec l n) as [->|]; [auto|apply FF; lia]|].
    set (p := f_mul (x n) (y n)) in *. set (q := val (x n) * val (y n)) in *. pose proof uro_pos. pose proof tiny_pos. pose proof (Rabs_pos q).
    destruct n as [|n].
    + assert (val (f_add s p) = val p) as -> by apply (zero_add p Fp). replace S with 0 by reflexivity. replace P with 0 by reflexivity. rewrite !Rplus_0_l, gam_1, und_1. eapply Rle_trans; [exact EM|]. nra.
    + set (k := Datatypes.S n) in *.
      assert (HP : Rabs S <= P) by apply rsum_abs. set (err := gam k * P + und k) in *.
      assert (T1 : Rabs (val s + val p) <= P + err + (Rabs q + (uro * Rabs q + tiny))).
      { eapply Rle_trans; [apply Rabs_triang|]. apply Rplus_le_compat; [pose proof (abs_le_add (val s) S); lra|pose proof (abs_le_add (val p) q); lra]. }
      assert (T2 : Rabs (val (f_add s p) - (S + q)) <= uro * (P + err + (Rabs q + (uro * Rabs q + tiny))) + (err + (uro * Rabs q + tiny))).
      { eapply Rle_trans; [apply (abs_split _ (val s + val p))|]. apply Rplus_le_compat; [eapply Rle_trans; [exact EA|]; apply Rmult_le_compat_l; lra|]. replace (val s + val p - (S + q)) with ((val s - S) + (val p - q)) by ring. eapply Rle_trans; [apply Rabs_triang|]. lra. }
      eapply Rle_trans; [exact T2|]. pose proof (und_S_tiny1 k). pose proof (gam_le 2 (Datatypes.S k) ltac:(lia)) as G2. rewrite gam_2 in G2. unfold err. rewrite gam_S in *.
      assert ((uro * (1 + uro) + uro) * Rabs q <= ((1 + uro) * gam k + uro) * Rabs q) by (apply Rmult_le_compat_r; lra). nra.
Qed.

Section LuErr.
  Variable A : nat -> nat -> binary64.
  Variable n : nat.
  Let F := lue A (n - 1).
  Hypothesis FF : forall i j, (i < n)%nat -> (j < n)%nat -> finite (F i j).
  Hypothesis PV : forall k, (k + 1 < n)%nat -> teqb (pv A k) t0 = false.
  Lemma F_up i j : (i <= j)%nat -> (j < n)%nat -> F i j = sch A i i j.
  Proof. intros H Hj. unfold F, lue. destruct ((n - 1 <=? i)%nat && (n - 1 <=? j)%nat) eqn:Q; [|now replace (i <=? j)%nat with true by lia]. replace (n - 1)%nat with i by lia. reflexivity. Qed.
  Lemma F_low i j : (j < i)%nat -> (i < n)%nat -> fdiv (sch A j i j) (F j j) = Some (F i j).
  Proof. intros H Hi. rewrite F_up by lia. unfold F, lue. replace ((n - 1 <=? i)%nat && (n - 1 <=? j)%nat) with false by lia. replace (i <=? j)%nat with false by lia. unfold fdiv. fold (pv A j). now rewrite PV by lia. Qed.
  (** One step of the elimination. *)
  Lemma sch_step k i j : (k < i)%nat -> (k < j)%nat -> (i < n)%nat -> (j < n)%nat -> sch A (S k) i j = f_sub (sch A k i j) (f_add f_zero (f_mul (F i k) (F k j))).
  Proof.
    intros Hi Hj Li Lj. cbn [sch]. rewrite (F_up k j) by lia. pose proof (F_low i k Hi Li) as E. unfold fdiv in E. destruct (teqb (F k k) t0); [discriminate|]. injection E as E. rewrite <- E. rewrite F_up by lia. reflexivity.
  Qed.
  Lemma fzero_add_fin y : finite (f_add f_zero y) -> finite y. Proof. intros H. now apply add_fin in H. Qed.
  (** The remaining terms of entry (i,j) of the product, from [k] on. *)
  Definition rest (k m : nat) (i j : nat) (last : R) : R := sum (m - k) (fun l => val (F i (k + l)) * val (F (k + l) j)) + last.
  Definition rabs (k m : nat) (i j : nat) (last : R) : R := sum (m - k) (fun l => Rabs (val (F i (k + l)) * val (F (k + l) j))) + Rabs last.
  Lemma sum_first m (f : nat -> R) : sum (S m) f = f 0%nat + sum m (fun l => f (S l)).
  Proof. rewrite (rsum_app 1 m). cbn. ring. Qed.
  Lemma rest_step k m i j last : (k < m)%nat -> rest k m i j last = val (F i k) * val (F k j) + rest (S k) m i j last.
  Proof. intros H. unfold rest. replace (m - k)%nat with (S (m - S k)) by lia. rewrite sum_first. rewrite Nat.add_0_r. rewrite (FloatProofs2.sum_ext _ (fun l => val (F i (k + S l)) * val (F (k + S l) j)) (fun l => val (F i (S k + l)) * val (F (S k + l) j))); [ring|]. intros l _. now rewrite Nat.add_succ_r. Qed.
  Lemma rabs_step k m i j last : (k < m)%nat -> rabs k m i j last = Rabs (val (F i k) * val (F k j)) + rabs (S k) m i j last.
  Proof. intros H. unfold rabs. replace (m - k)%nat with (S (m - S k)) by lia. rewrite sum_first. rewrite Nat.add_0_r. rewrite (FloatProofs2.sum_ext _ (fun l => Rabs (val (F i (k + S l)) * val (F (k + S l) j))) (fun l => Rabs (val (F i (S k + l)) * val (F (S k + l) j)))); [ring|]. intros l _. now rewrite Nat.add_succ_r. Qed.
  Lemma rest_rabs k m i j last : Rabs (rest k m i j last) <= rabs k m i j last.
  Proof. unfold rest, rabs. eapply Rle_trans; [apply Rabs_triang|]. apply Rplus_le_compat_r, rsum_abs. Qed.
  Lemma sch_err i j m r0 w last : (i < n)%nat -> (j < n)%nat -> (m <= i)%nat -> (m <= j)%nat -> 1 <= w -> finite (sch A m i j) ->
    Rabs (val (sch A m i j) - last) <= gam r0 * Rabs last + und r0 * w ->
    forall d, (d <= m)%nat -> finite (sch A (m - d) i j) /\ Rabs (val (sch A (m - d) i j) - rest (m - d) m i j last) <= gam (r0 + d) * rabs (m - d) m i j last + und (r0 + d) * w.
  Proof.
    intros Hi Hj Mi Mj Hw Fm Em. induction d as [|d IH]; intros Hd.
    - rewrite Nat.sub_0_r, Nat.add_0_r. split; [exact Fm|]. unfold rest, rabs. rewrite Nat.sub_diag. cbn [sum]. change (@t0 R ops_R) with 0. now rewrite !Rplus_0_l.
    - destruct (IH ltac:(lia)) as (F1 & E1). set (k := (m - S d)%nat) in *. replace (m - d)%nat with (S k) in * by lia. rewrite Nat.add_succ_r. rewrite rest_step, rabs_step by lia.
      set (R' := rest (S k) m i j last) in *. set (P' := rabs (S k) m i j last) in *.
      rewrite sch_step in F1, E1 by lia. destruct (sub_err _ _ F1) as (Fa & Fb & ES & _). split; [exact Fa|].
      destruct (zero_add _ (fzero_add_fin _ Fb)) as (_ & EZ). destruct (mul_err _ _ (fzero_add_fin _ Fb)) as (_ & _ & EM).
      rewrite EZ in ES. set (s' := f_sub _ _) in *. set (a := val (sch A k i j)) in *. set (p := val (f_mul (F i k) (F k j))) in *. set (q := val (F i k) * val (F k j)) in *.
      assert (HR : Rabs R' <= P') by apply rest_rabs. set (err := gam (r0 + d) * P' + und (r0 + d) * w) in *.
      assert (T1 : Rabs (val s') <= P' + err) by (pose proof (abs_le_add (val s') R'); lra).
      pose proof uro_pos. pose proof tiny_pos. pose proof (Rabs_pos q). pose proof (Rabs_pos (val s')).
      assert (T2 : Rabs (a - (q + R')) <= uro * (P' + err) + (uro * Rabs q + tiny) + err).
      { replace (a - (q + R')) with (- (val s' - (a - p)) + ((p - q) + (val s' - R'))) by ring. eapply Rle_trans; [apply Rabs_triang|]. rewrite Rabs_Ropp. pose proof (Rabs_triang (p - q) (val s' - R')). assert (uro * Rabs (val s') <= uro * (P' + err)) by (apply Rmult_le_compat_l; lra). lra. }
      eapply Rle_trans; [exact T2|]. pose proof (und_S_tiny (r0 + d)). pose proof (gam_pos (r0 + d)). pose proof (und_pos (r0 + d)). unfold err. rewrite gam_S.
      assert (und (S (r0 + d)) * w >= ((1 + uro) * und (r0 + d) + tiny) * w) by nra. assert (0 <= gam (r0 + d) * Rabs q) by (apply Rmult_le_pos; lra). assert (tiny * w >= tiny) by nra. nra.
  Qed.
End LuErr.
