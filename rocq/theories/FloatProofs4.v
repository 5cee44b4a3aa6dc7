(** Rounding errors of [lu] and of [solve]. *)
From Coq Require Import ZArith Reals Lra Lia List Arith Bool.
From Verif Require Import PidModel MatModel MatSpec MatProofs NumModel RankModel LuModel LuSpec FloatModel FloatSpec FloatProofs FloatProofs2 FloatProofs3.
Open Scope R_scope.
(** A sum over the first [n] indices whose terms vanish after index [m]. *)
Lemma sum_cut n m (f : nat -> R) : (m < n)%nat -> (forall l, (m < l < n)%nat -> f l = 0) -> sum n f = sum m f + f m.
Proof.
  intros Hm H. replace n with (S m + (n - S m))%nat by lia. rewrite rsum_app. rewrite (rsum_zero (n - S m)); [rewrite rsum_S; ring|]. intros i Hi. apply H. lia.
Qed.
Section LuErr2.
  Variable A : nat -> nat -> binary64.
  Variable n : nat.
  Let F := lue A (n - 1).
  Let f (i j : nat) : R := val (F i j).
  Hypothesis FF : forall i j, (i < n)%nat -> (j < n)%nat -> finite (F i j).
  Hypothesis PV : forall k, (k + 1 < n)%nat -> teqb (pv A k) t0 = false.
  Lemma low_lt i l : (l < i)%nat -> lower_part f i l = f i l.
  Proof. intros H. unfold lower_part. replace (i =? l)%nat with false by lia. now replace (l <? i)%nat with true by lia. Qed.
  Lemma low_eq i : lower_part f i i = 1. Proof. unfold lower_part. now rewrite Nat.eqb_refl. Qed.
  Lemma low_gt i l : (i < l)%nat -> lower_part f i l = 0.
  Proof. intros H. unfold lower_part. replace (i =? l)%nat with false by lia. now replace (l <? i)%nat with false by lia. Qed.
  Lemma up_le i l : (i <= l)%nat -> upper_part f i l = f i l. Proof. intros H. unfold upper_part. now replace (i <=? l)%nat with true by lia. Qed.
  Lemma up_gt i l : (l < i)%nat -> upper_part f i l = 0. Proof. intros H. unfold upper_part. now replace (i <=? l)%nat with false by lia. Qed.
  Lemma prod_rest i j : (i < n)%nat -> (j < n)%nat ->
    prod_entry n (lower_part f) (upper_part f) i j = rest A n 0 (Nat.min i j) i j (if (i <=? j)%nat then f i j else f i j * f j j) /\
    sum n (fun l => Rabs (lower_part f i l) * Rabs (upper_part f l j)) = rabs A n 0 (Nat.min i j) i j (if (i <=? j)%nat then f i j else f i j * f j j).
  Proof.
    intros Hi Hj. unfold prod_entry, rest, rabs. rewrite Nat.sub_0_r. cbn [Nat.add]. set (m := Nat.min i j).
    assert (Z : forall l, (m < l < n)%nat -> lower_part f i l = 0 \/ upper_part f l j = 0) by (intros l Hl; destruct (Nat.le_gt_cases i j); [left; apply low_gt; lia|right; apply up_gt; lia]).
    assert (M : lower_part f i m * upper_part f m j = (if (i <=? j)%nat then f i j else f i j * f j j)).
    { unfold m. destruct (i <=? j)%nat eqn:Q; [replace (Nat.min i j) with i by lia; rewrite low_eq, up_le by lia; ring|replace (Nat.min i j) with j by lia; now rewrite low_lt, up_le by lia]. }
    split.
    - change (tmul (T := R)) with Rmult. rewrite (sum_cut n m); [|lia|intros l Hl; destruct (Z l Hl) as [-> | ->]; ring]. rewrite M. f_equal. apply FloatProofs2.sum_ext. intros l Hl. now rewrite low_lt, up_le by lia.
    - rewrite (sum_cut n m); [|lia|intros l Hl; destruct (Z l Hl) as [-> | ->]; rewrite Rabs_R0; ring]. rewrite <- Rabs_mult, M. f_equal. apply FloatProofs2.sum_ext. intros l Hl. rewrite low_lt, up_le by lia. now rewrite <- Rabs_mult.
  Qed.
  Lemma lu_err i j : (i < n)%nat -> (j < n)%nat -> finite (A i j) /\
    Rabs (val (A i j) - prod_entry n (lower_part f) (upper_part f) i j) <= gam (n - 1) * sum n (fun l => Rabs (lower_part f i l) * Rabs (upper_part f l j)) + und (n - 1) * (1 + Rabs (f j j)).
  Proof.
    intros Hi Hj. destruct (prod_rest i j Hi Hj) as [-> ->]. set (m := Nat.min i j). set (w := 1 + Rabs (f j j)). assert (Hw : 1 <= w) by (unfold w; pose proof (Rabs_pos (f j j)); lra).
    assert (PR : forall r, (r <= n - 1)%nat -> forall P, 0 <= P -> gam r * P + und r * w <= gam (n - 1) * P + und (n - 1) * w) by (intros r Hr P HP; apply Rplus_le_compat; apply Rmult_le_compat_r; try lra; [now apply gam_le|now apply und_le]).
    assert (RP : forall last, 0 <= rabs A n 0 m i j last) by (intros last; unfold rabs; apply Rplus_le_le_0_compat; [apply rsum_pos; intros; apply Rabs_pos|apply Rabs_pos]).
    destruct (i <=? j)%nat eqn:Q.
    - assert (E : F i j = sch A m i j) by (unfold m; replace (Nat.min i j) with i by lia; apply (F_up A n); lia).
      destruct (sch_err A n PV i j m 0 w (f i j) Hi Hj ltac:(lia) ltac:(lia) Hw) with (d := m) as (H1 & H2); [rewrite <- E; now apply FF| |lia|].
      + rewrite <- E. fold (f i j). unfold Rminus. rewrite Rplus_opp_r, Rabs_R0. unfold gam, und. cbn. lra.
      + rewrite Nat.sub_diag in *. split; [exact H1|]. eapply Rle_trans; [exact H2|]. apply PR; [lia|apply RP].
    - pose proof (F_low A n PV i j ltac:(lia) Hi) as E. fold F in E. destruct (fdiv_res _ _ _ E (FF i j Hi Hj) (FF j j Hj Hj)) as (_ & Fs & ED).
      destruct (sch_err A n PV i j m 1 w (f i j * f j j) Hi Hj ltac:(lia) ltac:(lia) Hw) with (d := m) as (H1 & H2); [replace m with j by lia; exact Fs| |lia|].
      + replace m with j by lia. rewrite Rabs_minus_sym. fold (f i j) (f j j) in ED. eapply Rle_trans; [exact ED|]. rewrite gam_1, und_1. apply Rplus_le_compat_l. unfold w. pose proof tiny_pos. pose proof uro_pos. pose proof (Rabs_pos (f j j)). assert (0 <= tiny * uro) by (apply Rmult_le_pos; lra). assert (0 <= tiny * uro * Rabs (f j j)) by (apply Rmult_le_pos; lra). lra.
      + rewrite Nat.sub_diag in *. split; [exact H1|]. eapply Rle_trans; [exact H2|]. apply PR; [lia|apply RP].
  Qed.
End LuErr2.

Section SolveErr.
  Variable n : nat.
  Variable F : nat -> nat -> binary64.
  Let f (i j : nat) : R := val (F i j).
  Hypothesis FF : forall i j, (i < n)%nat -> (j < n)%nat -> finite (F i j).
  (** Forward substitution. *)
  Lemma forward_err (b y : nat -> binary64) : (forall i, (i < n)%nat -> y i = tsub (b i) (sum i (fun l => tmul (F i l) (y l))) \/ i = 0%nat /\ y i = b 0%nat) ->
    forall i, (i < n)%nat -> finite (y i) -> finite (b i) /\ Rabs (val (b i) - sum n (fun l => lower_part f i l * val (y l))) <= gam (n - 1) * sum n (fun l => Rabs (lower_part f i l) * Rabs (val (y l))) + und (n - 1).
  Proof.
    intros H i Hi Fy.
    assert (S1 : sum n (fun l => lower_part f i l * val (y l)) = sum i (fun l => f i l * val (y l)) + val (y i)).
    { rewrite (sum_cut n i) by (try lia; intros l Hl; unfold lower_part; replace (i =? l)%nat with false by lia; replace (l <? i)%nat with false by lia; cbn; ring). f_equal; [|unfold lower_part; rewrite Nat.eqb_refl; cbn; ring].
      apply FloatProofs2.sum_ext. intros l Hl. unfold lower_part. replace (i =? l)%nat with false by lia. now replace (l <? i)%nat with true by lia. }
    assert (S2 : sum n (fun l => Rabs (lower_part f i l) * Rabs (val (y l))) = sum i (fun l => Rabs (f i l * val (y l))) + Rabs (val (y i))).
    { rewrite (sum_cut n i) by (try lia; intros l Hl; unfold lower_part; replace (i =? l)%nat with false by lia; replace (l <? i)%nat with false by lia; cbn; rewrite Rabs_R0; ring). f_equal; [|unfold lower_part; rewrite Nat.eqb_refl; cbn; rewrite Rabs_R1; ring].
      apply FloatProofs2.sum_ext. intros l Hl. unfold lower_part. replace (i =? l)%nat with false by lia. replace (l <? i)%nat with true by lia. now rewrite Rabs_mult. }
    rewrite S1, S2. clear S1 S2. pose proof (gam_pos (n - 1)). pose proof (und_pos (n - 1)).
    assert (HP : 0 <= sum i (fun l => Rabs (f i l * val (y l)))) by (apply rsum_pos; intros; apply Rabs_pos). pose proof (Rabs_pos (val (y i))).
    destruct (Nat.eq_dec i 0) as [->|Hi0].
    - destruct (H 0%nat Hi) as [E|[_ E]].
      + assert (val (b 0%nat) = val (y 0%nat) /\ finite (b 0%nat)) as [-> Fb]. { rewrite E in *. cbn [sum] in *. change (tsub (b 0%nat) t0) with (f_sub (b 0%nat) f_zero) in *. destruct (sub_fin _ _ Fy) as [Fb _]. split; [|exact Fb]. unfold f_sub, f_zero, val. destruct (b 0%nat) as [[]|s| |s' m e HH]; reflexivity || discriminate Fb. }
        split; [exact Fb|]. cbn [sum]. change (@t0 R ops_R) with 0. rewrite Rplus_0_l. unfold Rminus. rewrite Rplus_opp_r, Rabs_R0. nra.
      + split; [now rewrite <- E|]. rewrite <- E. cbn [sum]. change (@t0 R ops_R) with 0. rewrite Rplus_0_l. unfold Rminus. rewrite Rplus_opp_r, Rabs_R0. nra.
    - destruct (H i Hi) as [E|[? _]]; [|contradiction]. rewrite E in Fy. change (finite (f_sub (b i) (sum i (fun l => tmul (F i l) (y l))))) in Fy. destruct (sub_err _ _ Fy) as (Fb & Fd & ES & _). split; [exact Fb|].
      change (f_sub (b i) (sum i (fun l => tmul (F i l) (y l)))) with (tsub (b i) (sum i (fun l => tmul (F i l) (y l)))) in ES. rewrite <- E in ES.
      destruct (dot_err i (F i) y Fd) as (_ & ED). set (d := val (sum i (fun l => tmul (F i l) (y l)))) in *. set (P := sum i (fun l => Rabs (f i l * val (y l)))) in *.
      change (sum i (fun l => val (F i l) * val (y l))) with (sum i (fun l => f i l * val (y l))) in ED. change (sum i (fun l => Rabs (val (F i l) * val (y l)))) with P in ED. set (Q := sum i (fun l => f i l * val (y l))) in *.
      replace (val (b i) - (Q + val (y i))) with (- (val (y i) - (val (b i) - d)) + (d - Q)) by ring. eapply Rle_trans; [apply Rabs_triang|]. rewrite Rabs_Ropp.
      pose proof (gam_le i (n - 1) ltac:(lia)). pose proof (und_le i (n - 1) ltac:(lia)). pose proof (gam_le 1 (n - 1) ltac:(lia)) as G1. rewrite gam_1 in G1.
      assert (gam i * P <= gam (n - 1) * P) by (apply Rmult_le_compat_r; lra). assert (uro * Rabs (val (y i)) <= gam (n - 1) * Rabs (val (y i))) by (apply Rmult_le_compat_r; lra). lra.
  Qed.
  (** Backward substitution. *)
  Lemma backward_err (y x : nat -> binary64) : (forall i, (i < n)%nat -> back_eq n F y x i) -> (forall i, (i < n)%nat -> finite (x i)) ->
    forall i, (i < n)%nat -> finite (y i) /\ Rabs (val (y i) - sum n (fun l => upper_part f i l * val (x l))) <= gam n * sum n (fun l => Rabs (upper_part f i l) * Rabs (val (x l))) + und n * (1 + Rabs (f i i)).
  Proof.
    intros H FX i Hi. specialize (H i Hi). unfold back_eq in H. pose proof uro_pos. pose proof tiny_pos. pose proof (Rabs_pos (f i i)).
    assert (S1 : forall g : nat -> R, (forall l, (l < i)%nat -> g l = 0) -> sum n g = g i + sum (n - (i + 1)) (fun l => g (i + 1 + l)%nat)).
    { intros g Hg. replace n with ((i + 1) + (n - (i + 1)))%nat at 1 by lia. rewrite rsum_app. f_equal. replace (i + 1)%nat with (S i) by lia. rewrite rsum_S, rsum_zero by exact Hg. ring. }
    rewrite (S1 (fun l => upper_part f i l * val (x l))) by (intros l Hl; unfold upper_part; replace (i <=? l)%nat with false by lia; cbn; ring).
    rewrite (S1 (fun l => Rabs (upper_part f i l) * Rabs (val (x l)))) by (intros l Hl; unfold upper_part; replace (i <=? l)%nat with false by lia; cbn; rewrite Rabs_R0; ring).
    assert (U : upper_part f i i = f i i) by (unfold upper_part; now rewrite Nat.leb_refl). rewrite U.
    rewrite (FloatProofs2.sum_ext _ (fun l => upper_part f i (i + 1 + l) * val (x (i + 1 + l)%nat)) (fun l => f i (i + 1 + l)%nat * val (x (i + 1 + l)%nat))) by (intros l Hl; unfold upper_part; now replace (i <=? i + 1 + l)%nat with true by lia).
    rewrite (FloatProofs2.sum_ext _ (fun l => Rabs (upper_part f i (i + 1 + l)) * Rabs (val (x (i + 1 + l)%nat))) (fun l => Rabs (f i (i + 1 + l)%nat * val (x (i + 1 + l)%nat)))) by (intros l Hl; unfold upper_part; replace (i <=? i + 1 + l)%nat with true by lia; now rewrite Rabs_mult).
    rewrite <- Rabs_mult. set (k := (n - (i + 1))%nat). set (Q := sum k (fun l => f i (i + 1 + l)%nat * val (x (i + 1 + l)%nat))). set (P := sum k (fun l => Rabs (f i (i + 1 + l)%nat * val (x (i + 1 + l)%nat)))).
    assert (HP : 0 <= P) by (apply rsum_pos; intros; apply Rabs_pos). destruct (fdiv_res _ _ _ H (FX i Hi) (FF i i Hi Hi)) as (_ & Fs & ED). fold (f i i) in ED. rewrite (Rmult_comm (val (x i)) (f i i)) in ED. set (z := f i i * val (x i)) in *. pose proof (Rabs_pos z).
    pose proof (gam_le 1 n ltac:(lia)) as G1. rewrite gam_1 in G1. pose proof (und_le 1 n ltac:(lia)) as U1. rewrite und_1 in U1.
    destruct (i + 1 =? n)%nat eqn:Q1.
    - split; [exact Fs|]. assert (Q = 0) as -> by (unfold Q, k; now replace (n - (i + 1))%nat with 0%nat by lia). assert (P = 0) as -> by (unfold P, k; now replace (n - (i + 1))%nat with 0%nat by lia).
      rewrite !Rplus_0_r. rewrite Rabs_minus_sym. eapply Rle_trans; [exact ED|]. apply Rplus_le_compat; [apply Rmult_le_compat_r; lra|]. assert (0 <= tiny * uro) by (apply Rmult_le_pos; lra). assert (tiny * Rabs (f i i) <= und n * Rabs (f i i)) by (apply Rmult_le_compat_r; lra). lra.
    - change (n - (i + 1))%nat with k in Fs, ED. change (tsub (y i) (sum k (fun l => tmul (F i (i + 1 + l)%nat) (x (i + 1 + l)%nat)))) with (f_sub (y i) (sum k (fun l => tmul (F i (i + 1 + l)%nat) (x (i + 1 + l)%nat)))) in *. destruct (sub_err _ _ Fs) as (Fy & Fd & ES & _). split; [exact Fy|].
      destruct (dot_err k (fun l => F i (i + 1 + l)%nat) (fun l => x (i + 1 + l)%nat) Fd) as (_ & EO). set (d := val (sum k (fun l => tmul (F i (i + 1 + l)%nat) (x (i + 1 + l)%nat)))) in *. set (s := val (f_sub _ _)) in *.
      change (sum k (fun l => val (F i (i + 1 + l)%nat) * val (x (i + 1 + l)%nat))) with Q in EO. change (sum k (fun l => Rabs (val (F i (i + 1 + l)%nat) * val (x (i + 1 + l)%nat)))) with P in EO.
      replace (val (y i) - (z + Q)) with (- (s - (val (y i) - d)) + (- (z - s) + (d - Q))) by ring. eapply Rle_trans; [apply Rabs_triang|]. eapply Rle_trans; [apply Rplus_le_compat_l, Rabs_triang|]. rewrite !Rabs_Ropp.
      assert (Hs : Rabs s <= Rabs z + (uro * Rabs z + tiny * Rabs (f i i))) by (pose proof (abs_le_add s z) as K; rewrite (Rabs_minus_sym s z) in K; lra).
      pose proof (gam_le 2 n ltac:(lia)) as G2. rewrite gam_2 in G2. pose proof (gam_le k n ltac:(lia)). pose proof (und_le k n ltac:(lia)).
      assert (gam k * P <= gam n * P) by (apply Rmult_le_compat_r; lra). assert ((uro * (1 + uro) + uro) * Rabs z <= gam n * Rabs z) by (apply Rmult_le_compat_r; lra).
      assert (uro * Rabs s <= uro * (Rabs z + (uro * Rabs z + tiny * Rabs (f i i)))) by (apply Rmult_le_compat_l; lra).
      assert (tiny * (1 + uro) * Rabs (f i i) <= und n * Rabs (f i i)) by (apply Rmult_le_compat_r; lra). nra.
  Qed.
End SolveErr.
