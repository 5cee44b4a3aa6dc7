(** Finite sums of real numbers, and the model's elementary steps on explicit matrices. *)
From Coq Require Import List Arith Bool Lia ZifyBool Reals Lra Ring_theory RealField.
From Verif Require Import PidModel MatModel MatSpec MatProofs MatProofs2 SnfModel RankModel LuModel LuSpec LuProofs2 LuProofs3 NumModel NumSpec.
Import ListNotations.
Open Scope R_scope.

Lemma field_ok_R : field_ok (T := R).
Proof.
  split; [exact RTheory|]. split; [|split].
  - intros a x Hx. cbn. field. exact Hx.
  - cbn. lra.
  - intros x y. cbn. destruct (Req_EM_T x y); intuition congruence.
Qed.
Lemma rltb_spec x y : Bool.reflect (x < y) (rltb x y).
Proof. unfold rltb. destruct (Rlt_dec x y); now constructor. Qed.
Lemma rleb_spec x y : Bool.reflect (x <= y) (rleb x y).
Proof. unfold rleb. destruct (Rle_dec x y); now constructor. Qed.
Lemma reqb_spec x y : Bool.reflect (x = y) (teqb x y).
Proof. cbn. destruct (Req_EM_T x y); now constructor. Qed.

Definition RLr : ring_theory (@t0 R ops_R) t1 tadd tmul tsub topp (@eq R) := RTheory.
Lemma rsum_S n (f : nat -> R) : sum (S n) f = sum n f + f n. Proof. reflexivity. Qed.
Lemma rsum_ext n (f g : nat -> R) : (forall k, (k < n)%nat -> f k = g k) -> sum n f = sum n g. Proof. apply sum_ext. Qed.
Lemma rsum_zero n (f : nat -> R) : (forall k, (k < n)%nat -> f k = 0) -> sum n f = 0. Proof. apply (sum_zero RLr). Qed.
Lemma rsum_add n (f g : nat -> R) : sum n (fun k => f k + g k) = sum n f + sum n g. Proof. apply (sum_add RLr). Qed.
Lemma rsum_sub n (f g : nat -> R) : sum n (fun k => f k - g k) = sum n f - sum n g. Proof. apply (sum_sub field_ok_R). Qed.
Lemma rsum_mul_l n c (f : nat -> R) : sum n (fun k => c * f k) = c * sum n f. Proof. apply (sum_mul_l RLr). Qed.
Lemma rsum_mul_r n c (f : nat -> R) : sum n (fun k => f k * c) = sum n f * c. Proof. apply (sum_mul_r RLr). Qed.
Lemma rsum_swap n m (f : nat -> nat -> R) : sum n (fun i => sum m (fun j => f i j)) = sum m (fun j => sum n (fun i => f i j)). Proof. apply (sum_swap RLr). Qed.
Lemma rsum_single n k (f : nat -> R) : (k < n)%nat -> (forall i, (i < n)%nat -> i <> k -> f i = 0) -> sum n f = f k. Proof. apply (sum_single RLr). Qed.
Lemma rsum_split n i (f : nat -> R) : (i <= n)%nat -> sum n f = sum i f + sum (n - i) (fun k => f (i + k)%nat). Proof. apply (sum_split field_ok_R). Qed.
Lemma rsum_first n (f : nat -> R) : sum (S n) f = f 0%nat + sum n (fun k => f (S k)).
Proof. rewrite (rsum_split (S n) 1) by lia. cbn [sum]. replace (S n - 1)%nat with n by lia. rewrite (rsum_ext n _ (fun k => f (S k))) by reflexivity. cbn. ring. Qed.
Lemma rsum_nonneg n (f : nat -> R) : (forall k, (k < n)%nat -> 0 <= f k) -> 0 <= sum n f.
Proof. induction n as [|n IH]; intros H; [cbn; lra|]. rewrite rsum_S. specialize (IH ltac:(intros; apply H; lia)). pose proof (H n ltac:(lia)). lra. Qed.
Lemma rsum_le n (f g : nat -> R) : (forall k, (k < n)%nat -> f k <= g k) -> sum n f <= sum n g.
Proof. induction n as [|n IH]; intros H; [cbn; lra|]. rewrite !rsum_S. specialize (IH ltac:(intros; apply H; lia)). pose proof (H n ltac:(lia)). lra. Qed.
Lemma rsum_zero_nonneg n (f : nat -> R) : (forall k, (k < n)%nat -> 0 <= f k) -> sum n f = 0 -> forall k, (k < n)%nat -> f k = 0.
Proof.
  induction n as [|n IH]; intros H E k Hk; [lia|]. rewrite rsum_S in E. pose proof (rsum_nonneg n f ltac:(intros; apply H; lia)). pose proof (H n ltac:(lia)).
  destruct (Nat.eq_dec k n) as [->|]; [lra|]. apply IH; [intros; apply H; lia|lra|lia].
Qed.

(** Inner products. *)
Lemma inner_ext n u u' v v' : (forall i, (i < n)%nat -> u i = u' i) -> (forall i, (i < n)%nat -> v i = v' i) -> inner n u v = inner n u' v'.
Proof. intros H K. unfold inner. apply rsum_ext. intros i Hi. now rewrite H, K by exact Hi. Qed.
Lemma inner_sym n u v : inner n u v = inner n v u.
Proof. unfold inner. apply rsum_ext. intros. ring. Qed.
Lemma inner_sub_l n u v w : inner n (fun i => u i - v i) w = inner n u w - inner n v w.
Proof. unfold inner. rewrite <- rsum_sub. apply rsum_ext. intros. ring. Qed.
Lemma inner_add_l n u v w : inner n (fun i => u i + v i) w = inner n u w + inner n v w.
Proof. unfold inner. rewrite <- rsum_add. apply rsum_ext. intros. ring. Qed.
Lemma inner_scale_l n c u w : inner n (fun i => c * u i) w = c * inner n u w.
Proof. unfold inner. rewrite <- rsum_mul_l. apply rsum_ext. intros. ring. Qed.
Lemma inner_sum_l n m (f : nat -> nat -> R) w : inner n (fun i => sum m (fun l => f l i)) w = sum m (fun l => inner n (f l) w).
Proof. unfold inner. rewrite <- rsum_swap. apply rsum_ext. intros i _. now rewrite rsum_mul_r. Qed.
Lemma inner_nonneg n u : 0 <= inner n u u.
Proof. apply rsum_nonneg. intros. apply Rle_0_sqr. Qed.
Lemma inner_zero n u : inner n u u = 0 -> forall i, (i < n)%nat -> u i = 0.
Proof. intros H i Hi. apply Rsqr_0_uniq. apply (rsum_zero_nonneg n (fun i => u i * u i)); [intros; apply Rle_0_sqr|exact H|exact Hi]. Qed.
Lemma inner_pos n u i : (i < n)%nat -> u i <> 0 -> 0 < inner n u u.
Proof. intros Hi H. destruct (Rle_lt_or_eq_dec _ _ (inner_nonneg n u)) as [L|E]; [exact L|]. symmetry in E. destruct H. exact (inner_zero n u E i Hi). Qed.
Lemma norm2_sq n u : norm2 n u * norm2 n u = inner n u u.
Proof. apply sqrt_sqrt, inner_nonneg. Qed.
Lemma norm2_nonneg n u : 0 <= norm2 n u. Proof. apply sqrt_pos. Qed.
Lemma norm2_zero n u : norm2 n u = 0 <-> inner n u u = 0.
Proof. split; intros H; [rewrite <- norm2_sq, H; ring|unfold norm2; rewrite H; apply sqrt_0]. Qed.

(** Steps of the model. *)
Lemma omapM_seq (g : nat -> R) (f : nat -> option R) n : (forall i, (i < n)%nat -> f i = Some (g i)) -> omapM f (seq 0 n) = Some (map g (seq 0 n)).
Proof. intros H. apply omapM_some. intros i Hi. apply in_seq in Hi. apply H. lia. Qed.
Lemma two_norm_mk n (f : nat -> nat -> R) : two_norm (mk n 1 f) = Some (norm2 n (column f 0)).
Proof.
  unfold two_norm. cbn [nr nc mk]. cbn [Nat.eqb]. fold (mk n 1 f). rewrite (omapM_seq (fun i => f i 0%nat * f i 0%nat)) by (intros i Hi; rewrite mget_in by lia; reflexivity).
  cbn [obind]. f_equal. unfold norm2, inner, column. f_equal. apply (fold_sum (O := ops_R)).
Qed.
Lemma cdot_mk n (f g : nat -> nat -> R) : cdot (mk n 1 f) (mk n 1 g) = Some (inner n (column f 0) (column g 0)).
Proof. unfold cdot. rewrite mtranspose_mk. cbn [obind]. rewrite mdot_mk. reflexivity. Qed.
Lemma mdivs_mk n m (f : nat -> nat -> R) c : c <> 0 -> mdivs (mk n m f) c = Some (mk n m (fun i j => f i j / c)).
Proof.
  intros H. unfold mdivs. cbn [nr nc mk]. fold (mk n m f). apply mbuild_some. intros i j Hi Hj. rewrite mget_in by assumption. cbn [obind].
  now rewrite (fdiv_some field_ok_R).
Qed.
Lemma mdivs_none n m (f : nat -> nat -> R) : (0 < n)%nat -> (0 < m)%nat -> mdivs (mk n m f) 0 = None.
Proof.
  intros Hn Hm. unfold mdivs. cbn [nr nc mk]. fold (mk n m f). apply (mbuild_none _ _ _ 0 0); [assumption|assumption|]. rewrite mget_in by assumption. cbn [obind].
  apply (fdiv_none field_ok_R).
Qed.
Lemma wcol_mk n m (f g : nat -> nat -> R) i : (i < m)%nat -> wcol (mk n m f) i (mk n 1 g) = Some (mk n m (fun r c => if c =? i then g r 0%nat else f r c)%nat).
Proof.
  intros Hi. unfold wcol. cbn [nr mk]. fold (mk n m f).
  replace (mk n 1 g) with (mk (n - 0) (i + 1 - i) g) by (f_equal; lia). rewrite mwrite_mk by lia. f_equal. apply mk_ext. intros r c Hr Hc.
  destruct (Nat.eqb_spec c i) as [->|N].
  - replace ((0 <=? r) && (r <? n) && (i <=? i) && (i <? i + 1))%nat with true by lia. f_equal; lia.
  - now replace ((0 <=? r) && (r <? n) && (i <=? c) && (c <? i + 1))%nat with false by lia.
Qed.
Lemma normalize_mk n m (f : nat -> nat -> R) i : (i < m)%nat -> norm2 n (column f i) <> 0 ->
  normalize_col (mk n m f) i = Some (mk n m (fun r c => if (c =? i)%nat then f r i / norm2 n (column f i) else f r c)).
Proof.
  intros Hi H. unfold normalize_col, divcol. rewrite mcol_mk by exact Hi. cbn [obind]. rewrite two_norm_mk. cbn [obind].
  change (column (fun i0 _ => f i0 i) 0) with (column f i). rewrite mdivs_mk by exact H. cbn [obind]. now rewrite wcol_mk by exact Hi.
Qed.
Lemma normalize_none n m (f : nat -> nat -> R) i : (i < m)%nat -> (0 < n)%nat -> norm2 n (column f i) = 0 -> normalize_col (mk n m f) i = None.
Proof.
  intros Hi Hn H. unfold normalize_col, divcol. rewrite mcol_mk by exact Hi. cbn [obind]. rewrite two_norm_mk. cbn [obind].
  change (column (fun i0 _ => f i0 i) 0) with (column f i). rewrite H. now rewrite mdivs_none by lia.
Qed.
Lemma gs_step_mk n m (f : nat -> nat -> R) i j : (i < m)%nat -> (j < m)%nat ->
  gs_step i (mk n m f) j = Some (mk n m (fun r c => if (c =? i)%nat then f r i - f r j * inner n (column f i) (column f j) else f r c)).
Proof.
  intros Hi Hj. unfold gs_step. rewrite !mcol_mk by assumption. cbn [obind]. rewrite cdot_mk. cbn [obind]. rewrite mscale_mk. cbn [obind]. unfold msub. rewrite mzip_mk. cbn [obind].
  now rewrite wcol_mk by exact Hi.
Qed.
Lemma gsw_step_mk n m (f : nat -> nat -> R) i j : (i < m)%nat -> (j < m)%nat -> inner n (column f j) (column f j) <> 0 ->
  gsw_step i (mk n m f) j = Some (mk n m (fun r c => if (c =? i)%nat then f r i - f r j * inner n (column f i) (column f j) / inner n (column f j) (column f j) else f r c)).
Proof.
  intros Hi Hj H. unfold gsw_step. rewrite !mcol_mk by assumption. cbn [obind]. rewrite cdot_mk. cbn [obind]. rewrite mscale_mk. cbn [obind]. rewrite cdot_mk. cbn [obind].
  change (column (fun i0 _ => f i0 j) 0) with (column f j). rewrite mdivs_mk by exact H. cbn [obind]. unfold msub. rewrite mzip_mk. cbn [obind].
  now rewrite wcol_mk by exact Hi.
Qed.
Lemma gsw_step_none n m (f : nat -> nat -> R) i j : (i < m)%nat -> (j < m)%nat -> (0 < n)%nat -> inner n (column f j) (column f j) = 0 -> gsw_step i (mk n m f) j = None.
Proof.
  intros Hi Hj Hn H. unfold gsw_step. rewrite !mcol_mk by assumption. cbn [obind]. rewrite cdot_mk. cbn [obind]. rewrite mscale_mk. cbn [obind]. rewrite cdot_mk. cbn [obind].
  change (column (fun i0 _ => f i0 j) 0) with (column f j). rewrite H. now rewrite mdivs_none by lia.
Qed.
