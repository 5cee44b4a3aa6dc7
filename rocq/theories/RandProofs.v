(** Random orthogonal matrices. *)
From Coq Require Import List Arith Bool Lia ZifyBool Reals Lra.
From Verif Require Import PidModel MatModel MatSpec MatProofs MatProofs2 SnfModel RankModel LuModel LuSpec LuProofs2 LuProofs3 NumModel NumSpec NumProofs HouseProofs HessProofs FrancisModel FrancisSpec FrancisProofs EigProofs TriModel TriSpec WilkModel WilkSpec WilkProofs SymQrSpec SymQrProofs SymQrProofs2 SymQrProofs3 RandModel.
Import ListNotations.
Open Scope R_scope.

Definition dir (n : nat) (d : nat -> R) (k : nat) : R := d k / norm2 n d.
Lemma norm2_zero n d : norm2 n d = 0 <-> forall k, (k < n)%nat -> d k = 0.
Proof.
  unfold norm2, inner. assert (0 <= sum n (fun i => d i * d i)) as P by (apply rsum_nonneg; intros; cbn; nra). split.
  - intros H k Hk. apply sqrt_eq_0 in H; [|exact P].
    pose proof (rsum_le n (fun i => if (i =? k)%nat then d k * d k else 0) (fun i => d i * d i)) as L.
    rewrite H in L. rewrite (rsum_single n k) in L; [rewrite Nat.eqb_refl in L; cbn in L|exact Hk|intros i Hi Hne; apply Nat.eqb_neq in Hne; now rewrite Hne].
    specialize (L ltac:(intros i Hi; cbn; destruct (Nat.eqb_spec i k) as [->|]; nra)). nra.
  - intros H. rewrite rsum_zero by (intros i Hi; cbn; rewrite H by exact Hi; ring). apply sqrt_0.
Qed.
Lemma dir_unit n d : norm2 n d <> 0 -> norm2 n (dir n d) = 1.
Proof.
  intros H. unfold norm2 at 1, inner, dir. rewrite (rsum_ext n _ (fun i => / (norm2 n d * norm2 n d) * (d i * d i))) by (intros; cbn; field; exact H).
  rewrite rsum_mul_l. change (sum n (fun i => d i * d i)) with (inner n d d).
  assert (norm2 n d * norm2 n d = inner n d d) as E by (apply sqrt_sqrt; apply rsum_nonneg; intros; cbn; nra). rewrite <- E. rewrite Rinv_l by (apply Rmult_integral_contrapositive; now split). apply sqrt_1.
Qed.
Lemma direction_mk n d : norm2 n d <> 0 -> random_direction n d = Some (mk n 1 (fun k _ => dir n d k)).
Proof.
  intros H. unfold random_direction. rewrite (mbuild_some n 1 _ (fun k _ => d k)) by reflexivity. cbn [obind]. rewrite two_norm_mk. cbn [obind]. change (column (fun k _ => d k) 0) with d. now rewrite mdivs_mk.
Qed.
Lemma direction_none n d : (0 < n)%nat -> norm2 n d = 0 -> random_direction n d = None.
Proof.
  intros Hn H. unfold random_direction. rewrite (mbuild_some n 1 _ (fun k _ => d k)) by reflexivity. cbn [obind]. rewrite two_norm_mk. cbn [obind]. change (column (fun k _ => d k) 0) with d. rewrite H. apply mdivs_none; lia.
Qed.

(** The matrix after the first loop. *)
Definition filled (draw : nat -> nat -> R) (n k : nat) (r c : nat) : R := if ((c <? k) && (c <=? r))%nat then dir (n - c) (draw c) (r - c) else 0.
Lemma fill_mk draw n k : (k <= n)%nat -> (0 < n)%nat -> (forall i, (i < k)%nat -> norm2 (n - i) (draw i) <> 0) ->
  foldM (ro_fill draw n) (seq 0 k) (mk n n (fun _ _ => 0)) = Some (mk n n (filled draw n k)).
Proof.
  intros Hk Hn H. apply (foldM_seq0 (ro_fill draw n) (fun k => mk n n (filled draw n k))).
  - apply mk_ext. intros r c Hr Hc. unfold filled. reflexivity.
  - intros i Hi. unfold ro_fill. rewrite direction_mk by (apply H; exact Hi). cbn [obind]. replace 1%nat with (i + 1 - i)%nat at 2 by lia. rewrite mwrite_mk by lia. f_equal. apply mk_ext.
    intros r c Hr Hc. unfold filled. destruct (Nat.eq_dec c i) as [->|Ne].
    + destruct (Nat.le_gt_cases i r).
      * replace ((i <=? r) && (r <? n) && (i <=? i) && (i <? i + 1))%nat with true by lia. replace ((i <? i + 1) && (i <=? r))%nat with true by lia. reflexivity.
      * replace ((i <=? r) && (r <? n) && (i <=? i) && (i <? i + 1))%nat with false by lia. replace ((i <? i + 1) && (i <=? r))%nat with false by lia. replace ((i <? i) && (i <=? r))%nat with false by lia. reflexivity.
    + replace ((i <=? r) && (r <? n) && (i <=? c) && (c <? i + 1))%nat with false by lia. replace (c <? i + 1)%nat with (c <? i)%nat by lia. reflexivity.
Qed.
Lemma fill_none draw n k : (k < n)%nat -> norm2 (n - k) (draw k) = 0 -> foldM (ro_fill draw n) (seq 0 n) (mk n n (fun _ _ => 0)) = None.
Proof.
  intros Hk H. replace n with (k + (1 + (n - k - 1)))%nat at 2 by lia. rewrite seq_app, foldM_app.
  destruct (foldM (ro_fill draw n) (seq 0 k) (mk n n (fun _ _ => 0))) as [M|]; [|reflexivity]. cbn [obind Nat.add seq foldM]. unfold ro_fill at 1. rewrite direction_none by (assumption || lia). reflexivity.
Qed.

Definition ro_upd (n i : nat) (g : nat -> nat -> R) (r c : nat) : R :=
  let x := fun k => g (i + k)%nat i in let v := hv_v (n - i) x in
  if ((i <=? r) && (i <? c))%nat then g r c - hv_b (n - i) x * v (r - i)%nat * sum (n - i) (fun k => v k * g (i + k)%nat c) else g r c.
Lemma ro_step_mk n i g : (i < n)%nat -> ro_step n (mk n n g) i = Some (mk n n (ro_upd n i g)).
Proof.
  intros Hi. unfold ro_step. rewrite msub_view_mk by lia. cbn [obind]. set (x := fun k => g (i + k)%nat i).
  assert (mk (n - i) (i + 1 - i) (fun a b : nat => g (i + a)%nat (i + b)%nat) = mk (n - i) 1 (fun a _ => x a)) as E.
  { replace (i + 1 - i)%nat with 1%nat by lia. apply mk_ext. intros a b Ha Hb. unfold x. f_equal. lia. }
  rewrite E. clear E. rewrite householder_mk by lia. cbn [obind fst snd].
  rewrite msub_view_mk by lia. cbn [obind]. rewrite mscale_mk. cbn [obind]. rewrite mtranspose_mk. cbn [obind]. rewrite mmul_mk. cbn [obind]. rewrite mmul_mk. cbn [obind].
  unfold msub. rewrite mzip_mk. cbn [obind]. rewrite mwrite_mk by lia. f_equal. apply mk_ext. intros r c Hr Hc. unfold ro_upd. fold x.
  destruct ((i <=? r) && (i <? c))%nat eqn:B.
  - replace ((i <=? r) && (r <? n) && (i + 1 <=? c) && (c <? n))%nat with true by lia. cbn [tsub ops_R].
    unfold prod_entry at 1. cbn [sum]. change (t0 (T := R)) with 0. unfold prod_entry. cbn [tadd tmul ops_R].
    replace (i + (r - i))%nat with r by lia. replace (g r (i + 1 + (c - (i + 1)))%nat) with (g r c) by (f_equal; lia).
    set (u := sum (n - i) (fun l => hv_v (n - i) x l * g (i + l)%nat (i + 1 + (c - (i + 1)))%nat)). assert (u = sum (n - i) (fun k => hv_v (n - i) x k * g (i + k)%nat c)) as -> by (apply rsum_ext; intros; do 2 f_equal; lia). ring.
  - replace ((i <=? r) && (r <? n) && (i + 1 <=? c) && (c <? n))%nat with false by lia. reflexivity.
Qed.

(** The block that begins at [s] is orthogonal, there are zeros above it, and the columns before it are those of the first loop. *)
Definition ro_inv (f : nat -> nat -> R) (n s : nat) (g : nat -> nat -> R) : Prop :=
  (forall r c, (r < n)%nat -> (c <= s)%nat -> g r c = f r c) /\ (forall r c, (r < s)%nat -> (s <= c < n)%nat -> g r c = 0) /\ orthogonal (n - s) (fun r c => g (s + r)%nat (s + c)%nat).
Lemma hv_first m x r : (0 < m)%nat -> (r < m)%nat -> ~ bad_vec m x -> norm2 m x = 1 -> reflector (hv_v m x) (hv_b m x) r 0 = x r.
Proof.
  intros Hm Hr NB N. set (v := hv_v m x). set (b := hv_b m x).
  assert (forall k, (k < m)%nat -> apply_mat m (reflector v b) x k = id_entry k 0) as A.
  { intros k Hk. rewrite reflector_apply by exact Hk. unfold v, b. rewrite hv_reflects by assumption. rewrite N. unfold id_entry. cbn. destruct (k =? 0)%nat; reflexivity. }
  pose proof (reflector_orth m v b (hv_good m x Hm NB)) as O.
  rewrite <- (apply_id m x r Hr). transitivity (apply_mat m (prod_entry m (reflector v b) (reflector v b)) x r).
  - rewrite apply_prod. unfold apply_mat at 1. rewrite (rsum_ext m _ (fun k => reflector v b r k * id_entry k 0)) by (intros k Hk; now rewrite A). rewrite rsum_id_r by exact Hm. reflexivity.
  - apply apply_ext; [|reflexivity]. intros j Hj. destruct (O r j Hr Hj) as [_ E]. rewrite <- E. apply rprod_ext; [reflexivity|]. intros l Hl. apply reflector_sym.
Qed.
Lemma orth_ext n P Q : (forall i j, (i < n)%nat -> (j < n)%nat -> P i j = Q i j) -> orthogonal n P -> orthogonal n Q.
Proof.
  intros E H i j Hi Hj. destruct (H i j Hi Hj) as [a b]. rewrite <- a. split.
  - apply rprod_ext; intros l Hl; unfold transposed; now rewrite E.
  - rewrite a, <- b. apply rprod_ext; intros l Hl; unfold transposed; now rewrite E.
Qed.
Lemma ro_inv_step f n s g : (S s < n)%nat -> (forall r c, (r < c)%nat -> f r c = 0) ->
  ~ bad_vec (n - s) (fun k => g (s + k)%nat s) -> norm2 (n - s) (fun k => g (s + k)%nat s) = 1 ->
  ro_inv f n (S s) g -> ro_inv f n s (ro_upd n s g).
Proof.
  intros Hs F0 NB N (K & Z & O). split; [|split].
  - intros r c Hr Hc. unfold ro_upd. replace ((s <=? r) && (s <? c))%nat with false by lia. apply K; lia.
  - intros r c Hr Hc. unfold ro_upd. replace ((s <=? r) && (s <? c))%nat with false by lia. destruct (Nat.eq_dec c s) as [->|]; [rewrite K by lia; apply F0; lia|apply Z; lia].
  - set (x := fun k => g (s + k)%nat s) in *. set (m := (n - s)%nat) in *. set (v := hv_v m x). set (b := hv_b m x).
    pose proof (orth_mul m _ _ (reflector_orth m v b (hv_good m x ltac:(lia) NB)) (embed_orth m 1 m (fun r c => g (S s + r)%nat (S s + c)%nat) ltac:(lia) ltac:(replace (m - 1)%nat with (n - S s)%nat by lia; exact O))) as OO.
    revert OO. apply orth_ext. intros r c Hr Hc. unfold ro_upd. fold x m v b. destruct c as [|c].
    + replace ((s <=? s + r) && (s <? s + 0))%nat with false by lia. rewrite Nat.add_0_r. change (g (s + r)%nat s) with (x r).
      rewrite (rprod_ext m _ (reflector v b) _ id_entry); [rewrite rprod_id_r by lia; unfold v, b; apply hv_first; assumption || lia|reflexivity|].
      intros l Hl. unfold embed, inr. replace ((1 <=? l) && (l <? m) && ((1 <=? 0) && (0 <? m)))%nat with false by lia. reflexivity.
    + replace ((s <=? s + r) && (s <? s + S c))%nat with true by lia. replace (s + r - s)%nat with r by lia.
      transitivity (apply_mat m (reflector v b) (fun k => g (s + k)%nat (s + S c)%nat) r).
      * unfold apply_mat, prod_entry. apply rsum_ext. intros k Hk. cbn [tmul ops_R]. f_equal. unfold embed, inr. destruct k as [|k].
        -- replace ((1 <=? 0) && (0 <? m) && ((1 <=? S c) && (S c <? m)))%nat with false by lia. rewrite Z by lia. reflexivity.
        -- replace ((1 <=? S k) && (S k <? m) && ((1 <=? S c) && (S c <? m)))%nat with true by lia. f_equal; lia.
      * rewrite reflector_apply by exact Hr. reflexivity.
Qed.
Lemma ro_loop f n s g : (s < n)%nat -> (forall r c, (r < c)%nat -> f r c = 0) ->
  (forall i, (i < s)%nat -> ~ bad_vec (n - i) (fun k => f (i + k)%nat i) /\ norm2 (n - i) (fun k => f (i + k)%nat i) = 1) ->
  ro_inv f n s g -> exists h, foldM (ro_step n) (rev (seq 0 s)) (mk n n g) = Some (mk n n h) /\ ro_inv f n 0 h.
Proof.
  revert g. induction s as [|s IH]; intros g Hs F0 H I.
  - exists g. split; [reflexivity|exact I].
  - rewrite seq_S, rev_app_distr. cbn [rev app Nat.add foldM]. rewrite ro_step_mk by lia. cbn [obind]. apply IH; [lia|exact F0|intros; apply H; lia|].
    destruct (H s ltac:(lia)) as [NB N]. destruct I as (K & I'). apply (ro_inv_step f n s g Hs F0); [| |now split].
    + intros (a & b). apply NB. split; [rewrite <- K by lia; exact a|]. intros i Hi. rewrite <- K by lia. now apply b.
    + rewrite <- N. unfold norm2, inner. f_equal. apply rsum_ext. intros k Hk. now rewrite K by lia.
Qed.
