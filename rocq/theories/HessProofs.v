(** Two-sided reflections on windows of a square matrix. *)
From Coq Require Import List Arith Bool Lia ZifyBool Reals Lra.
From Verif Require Import PidModel MatModel MatSpec MatProofs MatProofs2 SnfModel RankModel LuModel LuSpec LuProofs2 LuProofs3 NumModel NumSpec NumProofs HouseProofs.
Import ListNotations.
Open Scope R_scope.

Lemma rprod_assoc n (f g h : nat -> nat -> R) i j : prod_entry n (prod_entry n f g) h i j = prod_entry n f (prod_entry n g h) i j.
Proof. apply (prod_assoc RLr). Qed.
Lemma rprod_ext n (f f' g g' : nat -> nat -> R) i j : (forall l, (l < n)%nat -> f i l = f' i l) -> (forall l, (l < n)%nat -> g l j = g' l j) -> prod_entry n f g i j = prod_entry n f' g' i j.
Proof. intros H K. unfold prod_entry. apply rsum_ext. intros l Hl. now rewrite H, K by exact Hl. Qed.
Lemma rprod_trans n (f g : nat -> nat -> R) i j : prod_entry n (transposed g) (transposed f) i j = prod_entry n f g j i.
Proof. unfold prod_entry, transposed. apply rsum_ext. intros. cbn. ring. Qed.
Lemma rprod_id_l n (f : nat -> nat -> R) i j : (i < n)%nat -> prod_entry n id_entry f i j = f i j. Proof. apply (prod_id_l RLr). Qed.
Lemma rprod_id_r n (f : nat -> nat -> R) i j : (j < n)%nat -> prod_entry n f id_entry i j = f i j. Proof. apply (prod_id_r RLr). Qed.

(** Products of orthogonal matrices. *)
Lemma orth_id n : orthogonal n id_entry.
Proof. intros i j Hi Hj. split; unfold transposed; [rewrite rprod_id_r by exact Hj; symmetry; apply id_sym|rewrite rprod_id_l by exact Hi; symmetry; apply id_sym]. Qed.
Lemma orth_mul n P Q : orthogonal n P -> orthogonal n Q -> orthogonal n (prod_entry n P Q).
Proof.
  intros OP OQ i j Hi Hj. split.
  - rewrite (rprod_ext n _ (prod_entry n (transposed Q) (transposed P)) _ (prod_entry n P Q)) by (intros; (unfold transposed at 1; now rewrite rprod_trans) || reflexivity).
    rewrite rprod_assoc. rewrite (rprod_ext n (transposed Q) (transposed Q) _ Q); [now apply OQ|reflexivity|].
    intros l Hl. rewrite <- rprod_assoc. rewrite (rprod_ext n _ id_entry Q Q); [now apply rprod_id_l| |reflexivity]. intros k Hk. now apply OP.
  - rewrite (rprod_ext n (prod_entry n P Q) (prod_entry n P Q) _ (prod_entry n (transposed Q) (transposed P))) by (intros; (unfold transposed at 1; now rewrite rprod_trans) || reflexivity).
    rewrite rprod_assoc. rewrite (rprod_ext n P P _ (transposed P)); [now apply OP|reflexivity|].
    intros l Hl. rewrite <- rprod_assoc. rewrite (rprod_ext n _ id_entry (transposed P) (transposed P)); [now apply rprod_id_l| |reflexivity]. intros k Hk. now apply OQ.
Qed.
Lemma congr_id n A : congruent n A id_entry A.
Proof.
  intros i j Hi Hj. rewrite (rprod_ext n _ id_entry _ A); [now rewrite rprod_id_l|intros; unfold transposed; apply id_sym|intros; now rewrite rprod_id_r].
Qed.
Lemma congr_trans n A P B Q C : congruent n A P B -> congruent n B Q C -> congruent n A (prod_entry n P Q) C.
Proof.
  intros H K i j Hi Hj. rewrite K by assumption.
  rewrite (rprod_ext n (transposed (prod_entry n P Q)) (prod_entry n (transposed Q) (transposed P)) (prod_entry n A (prod_entry n P Q)) (prod_entry n A (prod_entry n P Q))) by (intros; (unfold transposed at 1; now rewrite rprod_trans) || reflexivity).
  rewrite rprod_assoc. apply rprod_ext; [reflexivity|]. intros l Hl.
  rewrite (rprod_ext n B (prod_entry n (transposed P) (prod_entry n A P)) Q Q) by (intros; (now apply H) || reflexivity).
  rewrite rprod_assoc. apply rprod_ext; [reflexivity|]. intros k Hk. apply rprod_assoc.
Qed.
Lemma congr_ext n A A' P B B' : same n n A A' -> same n n B B' -> congruent n A P B -> congruent n A' P B'.
Proof.
  intros HA HB H i j Hi Hj. rewrite <- HB by assumption. rewrite H by assumption. apply rprod_ext; [reflexivity|]. intros l Hl. apply rprod_ext; [|reflexivity]. intros k Hk. now apply HA.
Qed.

(** The full reflection by a vector supported in a window. *)
Definition shifted (r0 r1 : nat) (v : nat -> R) : nat -> R := fun i => if ((r0 <=? i) && (i <? r1))%nat then v (i - r0)%nat else 0.
Lemma shifted_sum n r0 r1 v (g : nat -> R) : (r0 <= r1 <= n)%nat -> sum n (fun k => shifted r0 r1 v k * g k) = sum (r1 - r0) (fun k => v k * g (r0 + k)%nat).
Proof.
  intros H. rewrite (rsum_split n r0), (rsum_split (n - r0) (r1 - r0)) by lia. rewrite (rsum_zero r0), (rsum_zero (n - r0 - (r1 - r0))).
  - rewrite Rplus_0_l, Rplus_0_r. apply rsum_ext. intros k Hk. unfold shifted. replace ((r0 <=? r0 + k) && (r0 + k <? r1))%nat with true by lia. do 2 f_equal. lia.
  - intros k Hk. unfold shifted. replace ((r0 <=? r0 + (r1 - r0 + k)) && (r0 + (r1 - r0 + k) <? r1))%nat with false by lia. ring.
  - intros k Hk. unfold shifted. replace ((r0 <=? k) && (k <? r1))%nat with false by lia. ring.
Qed.
Lemma shifted_inner n r0 r1 v w : (r0 <= r1 <= n)%nat -> inner n (shifted r0 r1 v) (shifted r0 r1 w) = inner (r1 - r0) v w.
Proof.
  intros H. unfold inner. rewrite shifted_sum by exact H. apply rsum_ext. intros k Hk. unfold shifted. replace ((r0 <=? r0 + k) && (r0 + k <? r1))%nat with true by lia. do 2 f_equal. lia.
Qed.
(** [(I - b v v^t) f] and [f (I - b v v^t)] *)
Definition hl (n : nat) (v : nat -> R) (b : R) (f : nat -> nat -> R) : nat -> nat -> R := fun i j => f i j - b * (v i * sum n (fun k => v k * f k j)).
Definition hr (n : nat) (v : nat -> R) (b : R) (f : nat -> nat -> R) : nat -> nat -> R := fun i j => f i j - b * (sum n (fun k => v k * f i k) * v j).
Lemma hl_prod n v b f i j : (i < n)%nat -> hl n v b f i j = prod_entry n (reflector v b) f i j.
Proof.
  intros Hi. unfold prod_entry, reflector, hl. rewrite (rsum_ext n (fun l => tmul (id_entry i l - b * (v i * v l)) (f l j)) (fun k => id_entry i k * f k j - b * v i * (v k * f k j))) by (intros; cbn; ring).
  rewrite rsum_sub, rsum_id_l, rsum_mul_l by exact Hi. ring.
Qed.
Lemma hr_prod n v b f i j : (j < n)%nat -> hr n v b f i j = prod_entry n f (reflector v b) i j.
Proof.
  intros Hj. unfold prod_entry, reflector, hr. rewrite (rsum_ext n (fun l => tmul (f i l) (id_entry l j - b * (v l * v j))) (fun k => f i k * id_entry k j - b * v j * (v k * f i k))) by (intros; cbn; ring).
  rewrite rsum_sub, rsum_id_r, rsum_mul_l by exact Hj. ring.
Qed.
Lemma two_sided n v b f : congruent n f (reflector v b) (hr n v b (hl n v b f)).
Proof.
  intros i j Hi Hj. rewrite hr_prod by exact Hj. rewrite (rprod_ext n _ (prod_entry n (transposed (reflector v b)) f) _ (reflector v b)).
  - apply rprod_assoc.
  - intros l Hl. rewrite hl_prod by exact Hi. apply rprod_ext; [intros; unfold transposed; apply reflector_sym|reflexivity].
  - reflexivity.
Qed.
(** The windowed updates of the program are the full ones when nothing outside the window is touched. *)
Lemma left_window n r0 r1 c0 c1 v b f : (r0 <= r1 <= n)%nat -> (c0 <= c1 <= n)%nat ->
  (forall i j, (r0 <= i < r1)%nat -> (j < n)%nat -> ~ (c0 <= j < c1)%nat -> f i j = 0) ->
  forall i j, (i < n)%nat -> (j < n)%nat ->
  (if ((r0 <=? i) && (i <? r1) && (c0 <=? j) && (j <? c1))%nat then f i j - v (i - r0)%nat * sum (r1 - r0) (fun k => v k * f (r0 + k)%nat j) * b else f i j) = hl n (shifted r0 r1 v) b f i j.
Proof.
  intros Hr Hc Z i j Hi Hj. unfold hl. rewrite shifted_sum by exact Hr. unfold shifted. destruct ((r0 <=? i) && (i <? r1))%nat eqn:E; cbn [andb]; [|ring].
  destruct ((c0 <=? j) && (j <? c1))%nat eqn:E2; [ring|]. rewrite (rsum_zero (r1 - r0)); [ring|]. intros k Hk. rewrite Z by lia. ring.
Qed.
Lemma right_window n r0 r1 c0 c1 v b f : (r0 <= r1 <= n)%nat -> (c0 <= c1 <= n)%nat ->
  (forall i j, (c0 <= j < c1)%nat -> (i < n)%nat -> ~ (r0 <= i < r1)%nat -> f i j = 0) ->
  forall i j, (i < n)%nat -> (j < n)%nat ->
  (if ((r0 <=? i) && (i <? r1) && (c0 <=? j) && (j <? c1))%nat then f i j - sum (c1 - c0) (fun k => f i (c0 + k)%nat * v k) * v (j - c0)%nat * b else f i j) = hr n (shifted c0 c1 v) b f i j.
Proof.
  intros Hr Hc Z i j Hi Hj. unfold hr. rewrite shifted_sum by exact Hc. unfold shifted. rewrite (rsum_ext (c1 - c0) (fun k => v k * f i (c0 + k)%nat) (fun k => f i (c0 + k)%nat * v k)) by (intros; ring).
  destruct ((c0 <=? j) && (j <? c1))%nat eqn:E; [|replace ((r0 <=? i) && (i <? r1) && (c0 <=? j) && (j <? c1))%nat with false by lia; ring].
  destruct ((r0 <=? i) && (i <? r1))%nat eqn:E2; [replace (true && (c0 <=? j) && (j <? c1))%nat with true by lia; ring|cbn [andb]].
  rewrite (rsum_zero (c1 - c0)); [ring|]. intros k Hk. rewrite Z by lia. ring.
Qed.
Lemma house_left_mk n r0 r1 c0 c1 v b f : (r0 <= r1 <= n)%nat -> (c0 <= c1 <= n)%nat ->
  (forall i j, (r0 <= i < r1)%nat -> (j < n)%nat -> ~ (c0 <= j < c1)%nat -> f i j = 0) ->
  house_left (mk n n f) r0 r1 c0 c1 (mk (r1 - r0) 1 (fun i _ => v i)) b = Some (mk n n (hl n (shifted r0 r1 v) b f)).
Proof.
  intros Hr Hc Z. unfold house_left. rewrite msub_view_mk by assumption. cbn [obind]. rewrite mtranspose_mk. cbn [obind]. rewrite mmul_mk. cbn [obind]. rewrite mmul_mk. cbn [obind]. rewrite mscale_mk. cbn [obind].
  unfold msub. rewrite mzip_mk. cbn [obind]. rewrite mwrite_mk by assumption. f_equal. apply mk_ext. intros i j Hi Hj. rewrite <- (left_window n r0 r1 c0 c1 v b f Hr Hc Z i j Hi Hj).
  destruct ((r0 <=? i) && (i <? r1) && (c0 <=? j) && (j <? c1))%nat eqn:E; [|reflexivity]. unfold prod_entry. cbn [sum]. replace (r0 + (i - r0))%nat with i by lia. replace (c0 + (j - c0))%nat with j by lia. cbn. ring.
Qed.
Lemma house_right_mk n r0 r1 c0 c1 v b f : (r0 <= r1 <= n)%nat -> (c0 <= c1 <= n)%nat ->
  (forall i j, (c0 <= j < c1)%nat -> (i < n)%nat -> ~ (r0 <= i < r1)%nat -> f i j = 0) ->
  house_right (mk n n f) r0 r1 c0 c1 (mk (c1 - c0) 1 (fun i _ => v i)) b = Some (mk n n (hr n (shifted c0 c1 v) b f)).
Proof.
  intros Hr Hc Z. unfold house_right. rewrite msub_view_mk by assumption. cbn [obind]. rewrite mtranspose_mk. cbn [obind]. rewrite mmul_mk. cbn [obind]. rewrite mmul_mk. cbn [obind]. rewrite mscale_mk. cbn [obind].
  unfold msub. rewrite mzip_mk. cbn [obind]. rewrite mwrite_mk by assumption. f_equal. apply mk_ext. intros i j Hi Hj. rewrite <- (right_window n r0 r1 c0 c1 v b f Hr Hc Z i j Hi Hj).
  destruct ((r0 <=? i) && (i <? r1) && (c0 <=? j) && (j <? c1))%nat eqn:E; [|reflexivity]. unfold prod_entry. cbn [sum]. replace (r0 + (i - r0))%nat with i by lia. replace (c0 + (j - c0))%nat with j by lia. cbn. ring.
Qed.
Lemma hl_out n r0 r1 v b f i j : ~ (r0 <= i < r1)%nat -> hl n (shifted r0 r1 v) b f i j = f i j.
Proof. intros H. unfold hl, shifted at 1. replace ((r0 <=? i) && (i <? r1))%nat with false by lia. ring. Qed.
Lemma hr_out n c0 c1 v b f i j : ~ (c0 <= j < c1)%nat -> hr n (shifted c0 c1 v) b f i j = f i j.
Proof. intros H. unfold hr, shifted at 2. replace ((c0 <=? j) && (j <? c1))%nat with false by lia. ring. Qed.
Lemma hl_zero_col n r0 r1 v b f i j : (r0 <= r1 <= n)%nat -> (forall k, (r0 <= k < r1)%nat -> f k j = 0) -> hl n (shifted r0 r1 v) b f i j = f i j.
Proof. intros Hr Z. unfold hl. rewrite shifted_sum by exact Hr. rewrite (rsum_zero (r1 - r0)); [ring|]. intros k Hk. rewrite Z by lia. ring. Qed.
Lemma hr_zero_row n c0 c1 v b f i j : (c0 <= c1 <= n)%nat -> (forall k, (c0 <= k < c1)%nat -> f i k = 0) -> hr n (shifted c0 c1 v) b f i j = f i j.
Proof. intros Hc Z. unfold hr. rewrite shifted_sum by exact Hc. rewrite (rsum_zero (c1 - c0)); [ring|]. intros k Hk. rewrite Z by lia. ring. Qed.
(** The column from which the reflection was computed. *)
Lemma hl_own n r0 r1 f j x i : (r0 < r1 <= n)%nat -> (forall k, (k < r1 - r0)%nat -> f (r0 + k)%nat j = x k) -> (r0 <= i < r1)%nat ->
  hl n (shifted r0 r1 (hv_v (r1 - r0) x)) (hv_b (r1 - r0) x) f i j = x (i - r0)%nat - hv_b (r1 - r0) x * hv_v (r1 - r0) x (i - r0) * inner (r1 - r0) (hv_v (r1 - r0) x) x.
Proof.
  intros Hr E Hi. unfold hl. rewrite shifted_sum by lia. unfold shifted. replace ((r0 <=? i) && (i <? r1))%nat with true by lia.
  rewrite (rsum_ext (r1 - r0) _ (fun k => hv_v (r1 - r0) x k * x k)) by (intros k Hk; now rewrite E). fold (inner (r1 - r0) (hv_v (r1 - r0) x) x).
  replace i with (r0 + (i - r0))%nat at 1 by lia. rewrite E by lia. ring.
Qed.
Lemma refl_orth n r0 r1 x : (r0 < r1 <= n)%nat -> ~ bad_vec (r1 - r0) x -> orthogonal n (reflector (shifted r0 r1 (hv_v (r1 - r0) x)) (hv_b (r1 - r0) x)).
Proof. intros Hr G. apply reflector_orth. rewrite shifted_inner by lia. apply hv_good; [lia|exact G]. Qed.

(** Trace and eigenvalues of similar matrices. *)
Lemma trace_similar n A B : orth_similar n A B -> trace n B = trace n A.
Proof.
  intros (P & O & C). unfold trace. rewrite (rsum_ext n _ (fun i => sum n (fun l => P l i * sum n (fun k => A l k * P k i)))) by (intros i Hi; rewrite C by exact Hi; reflexivity).
  rewrite rsum_swap. apply rsum_ext. intros l Hl. rewrite (rsum_ext n _ (fun i => sum n (fun k => A l k * (P l i * P k i)))) by (intros i Hi; rewrite <- rsum_mul_l; apply rsum_ext; intros; ring).
  rewrite rsum_swap. rewrite (rsum_ext n _ (fun k => A l k * id_entry k l)); [now rewrite rsum_id_r|]. intros k Hk. rewrite rsum_mul_l. f_equal. rewrite <- (proj2 (O k l Hk Hl)). unfold prod_entry, transposed. apply rsum_ext. intros. cbn. ring.
Qed.
Lemma apply_prod n A B x i : apply_mat n (prod_entry n A B) x i = apply_mat n A (apply_mat n B x) i.
Proof. unfold apply_mat, prod_entry. apply (prod_vec field_ok_R). Qed.
Lemma apply_ext n A B x y i : (forall j, (j < n)%nat -> A i j = B i j) -> (forall j, (j < n)%nat -> x j = y j) -> apply_mat n A x i = apply_mat n B y i.
Proof. intros H K. unfold apply_mat. apply rsum_ext. intros j Hj. now rewrite H, K by exact Hj. Qed.
Lemma apply_id n x i : (i < n)%nat -> apply_mat n id_entry x i = x i.
Proof. intros H. unfold apply_mat. now apply rsum_id_l. Qed.
Lemma apply_scale n A c x i : apply_mat n A (fun j => c * x j) i = c * apply_mat n A x i.
Proof. unfold apply_mat. rewrite <- rsum_mul_l. apply rsum_ext. intros. ring. Qed.
Lemma sim_sym n A B : orth_similar n A B -> orth_similar n B A.
Proof.
  intros (P & O & C). exists (transposed P). split; [intros i j Hi Hj; destruct (O i j Hi Hj); split; assumption|].
  intros i j Hi Hj. change (transposed (transposed P)) with P.
  rewrite (rprod_ext n P P _ (prod_entry n (prod_entry n (transposed P) (prod_entry n A P)) (transposed P))).
  - transitivity (prod_entry n (prod_entry n P (transposed P)) (prod_entry n A (prod_entry n P (transposed P))) i j).
    + rewrite (rprod_ext n _ id_entry _ (prod_entry n A id_entry)).
      * rewrite rprod_id_l, rprod_id_r by assumption. reflexivity.
      * intros l Hl. now apply O.
      * intros l Hl. apply rprod_ext; [reflexivity|]. intros k Hk. now apply O.
    + rewrite rprod_assoc. apply rprod_ext; [reflexivity|]. intros l Hl. rewrite rprod_assoc. apply rprod_ext; [reflexivity|]. intros k Hk. now rewrite rprod_assoc.
  - reflexivity.
  - intros l Hl. apply rprod_ext; [|reflexivity]. intros k Hk. now apply C.
Qed.
Lemma eigen_similar1 n A B l : orth_similar n A B -> eigenvalue n B l -> eigenvalue n A l.
Proof.
  intros (P & O & C) (x & (i0 & H0 & N) & E). exists (apply_mat n P x).
  assert (forall i, (i < n)%nat -> apply_mat n (transposed P) (apply_mat n P x) i = x i) as I.
  { intros i Hi. rewrite <- apply_prod. rewrite (apply_ext n _ id_entry x x) by (auto; intros; now apply O). now apply apply_id. }
  split.
  - destruct (Classical_Prop.classic (exists i, (i < n)%nat /\ apply_mat n P x i <> 0)) as [K|K]; [exact K|]. exfalso. apply N. rewrite <- (I i0 H0). unfold apply_mat at 1. apply rsum_zero. intros k Hk.
    destruct (Req_EM_T (apply_mat n P x k) 0) as [->|Z]; [ring|]. exfalso. apply K. exists k. auto.
  - intros i Hi. transitivity (apply_mat n P (apply_mat n B x) i).
    + rewrite <- apply_prod, <- apply_prod. apply apply_ext; [|reflexivity]. intros j Hj. symmetry.
      rewrite (rprod_ext n P P B (prod_entry n (transposed P) (prod_entry n A P))) by (reflexivity || (intros; now apply C)). rewrite <- rprod_assoc.
      rewrite (rprod_ext n _ id_entry _ (prod_entry n A P)); [now apply rprod_id_l| |reflexivity]. intros k Hk. now apply O.
    + rewrite (apply_ext n P P _ (fun j => l * x j)) by (auto). apply apply_scale.
Qed.
Lemma eigen_similar n A B l : orth_similar n A B -> (eigenvalue n A l <-> eigenvalue n B l).
Proof. intros S. split; apply eigen_similar1; [now apply sim_sym|exact S]. Qed.

(** [hessenberg_form] *)
Definition hess_upto (n k : nat) (f : nat -> nat -> R) : Prop := forall i j, (j < k)%nat -> (j + 1 < i < n)%nat -> f i j = 0.
Lemma hess_step_mk n k f : (k + 2 < n)%nat -> hess_upto n k f ->
  exists v b, hess_step n (mk n n f) k = Some (mk n n (hr n v b (hl n v b f))) /\ hess_upto n (k + 1) (hr n v b (hl n v b f)) /\
    (forall i j, (j < k)%nat -> hr n v b (hl n v b f) i j = f i j) /\
    (0 <= hr n v b (hl n v b f) (k + 1)%nat k -> orthogonal n (reflector v b)).
Proof.
  intros Hk Z. set (x := fun i => f (k + 1 + i)%nat k). set (d := (n - (k + 1))%nat).
  exists (shifted (k + 1) n (hv_v d x)), (hv_b d x). unfold hess_step. rewrite msub_view_mk by lia. cbn [obind]. replace (k + 1 - k)%nat with 1%nat by lia.
  rewrite householder_some by lia. cbn [obind fst snd].
  assert (forall i, column (fun i j : nat => f (k + 1 + i)%nat (k + j)%nat) 0 i = x i) as EX by (intros i; unfold column, x; now rewrite Nat.add_0_r).
  assert (forall i, hv_v (n - (k + 1)) (column (fun i j : nat => f (k + 1 + i)%nat (k + j)%nat) 0) i = hv_v d x i) as EV.
  { intros i. unfold hv_v, hv_h, norm2, inner, tail_sq, d. rewrite !EX. rewrite (rsum_ext (n - (k + 1) - 1) _ (fun i => x (1 + i)%nat * x (1 + i)%nat)) by (intros; now rewrite EX).
    rewrite (rsum_ext (n - (k + 1)) _ (fun i => x i * x i)) by (intros; now rewrite EX). reflexivity. }
  assert (hv_b (n - (k + 1)) (column (fun i j : nat => f (k + 1 + i)%nat (k + j)%nat) 0) = hv_b d x) as EB.
  { unfold hv_b, hv_h, norm2, inner, tail_sq, d. rewrite !EX. rewrite (rsum_ext (n - (k + 1) - 1) _ (fun i => x (1 + i)%nat * x (1 + i)%nat)) by (intros; now rewrite EX).
    rewrite (rsum_ext (n - (k + 1)) _ (fun i => x i * x i)) by (intros; now rewrite EX). reflexivity. }
  rewrite EB. rewrite (mk_ext (n - (k + 1)) 1 _ (fun i _ => hv_v d x i)) by (intros; apply EV).
  rewrite (house_left_mk n (k + 1) n k n (hv_v d x) (hv_b d x) f); [|lia|lia|intros i j Hi Hj N; apply Z; lia]. cbn [obind].
  rewrite (house_right_mk n 0 n (k + 1) n (hv_v d x) (hv_b d x)); [|lia|lia|intros; lia].
  split; [reflexivity|].
  assert (forall i j, (j < k)%nat -> hl n (shifted (k + 1) n (hv_v d x)) (hv_b d x) f i j = f i j) as L by (intros i j Hj; apply hl_zero_col; [lia|intros; apply Z; lia]).
  assert (forall i, (k + 1 <= i < n)%nat -> hl n (shifted (k + 1) n (hv_v d x)) (hv_b d x) f i k = x (i - (k + 1))%nat - hv_b d x * hv_v d x (i - (k + 1)) * inner d (hv_v d x) x) as OWN by (intros i Hi; apply hl_own; [lia|reflexivity|lia]).
  split; [|split].
  - intros i j Hj Hi. rewrite hr_out by lia. destruct (Nat.eq_dec j k) as [->|N]; [|rewrite L by lia; apply Z; lia]. rewrite OWN by lia. apply hv_clears; lia.
  - intros i j Hj. rewrite hr_out by lia. now apply L.
  - intros P. rewrite hr_out in P by lia. rewrite OWN in P by lia. rewrite Nat.sub_diag in P. apply refl_orth; [lia|]. intros B. destruct (hv_bad d x ltac:(lia) B) as (Eb & Ev).
    rewrite Eb, hv_v0 in P. rewrite (inner_ext d _ (fun i => id_entry i 0%nat) x x) in P by (auto || (intros; now apply Ev)). unfold inner in P.
    rewrite (rsum_ext d _ (fun i => id_entry 0%nat i * x i)) in P by (intros; now rewrite id_sym). rewrite rsum_id_l in P by lia. destruct B as (B & _). fold d in B. lra.
Qed.
Lemma hess_fold n f k : (k + 2 <= n)%nat -> exists g, foldM (hess_step n) (seq 0 k) (mk n n f) = Some (mk n n g) /\ hess_upto n k g /\
  ((forall l, (l < k)%nat -> 0 <= g (l + 1)%nat l) -> exists P, orthogonal n P /\ congruent n f P g).
Proof.
  induction k as [|k IH]; intros Hk.
  - exists f. split; [reflexivity|]. split; [intros i j Hj; lia|]. intros _. exists id_entry. split; [apply orth_id|apply congr_id].
  - destruct IH as (g & E & Z & C); [lia|]. rewrite seq_S, foldM_app, E. cbn [obind foldM Nat.add]. destruct (hess_step_mk n k g ltac:(lia) Z) as (v & b & E2 & Z2 & S & O).
    rewrite E2. cbn [obind]. eexists. split; [reflexivity|]. split; [now rewrite <- Nat.add_1_r|]. intros P. destruct C as (Q & OQ & CQ); [intros l Hl; rewrite <- (S (l + 1)%nat l Hl); apply P; lia|].
    exists (prod_entry n Q (reflector v b)). split; [apply orth_mul; [exact OQ|apply O, P; lia]|]. eapply congr_trans; [exact CQ|apply two_sided].
Qed.
