(** Householder reflections and plane rotations. *)
From Coq Require Import List Arith Bool Lia ZifyBool Reals Lra.
From Verif Require Import PidModel MatModel MatSpec MatProofs MatProofs2 SnfModel RankModel LuModel LuSpec LuProofs2 LuProofs3 NumModel NumSpec NumProofs.
Import ListNotations.
Open Scope R_scope.

Lemma id_sym i j : id_entry (T := R) i j = id_entry j i.
Proof. unfold id_entry. destruct (Nat.eqb_spec i j), (Nat.eqb_spec j i); congruence. Qed.
Lemma rsum_id_l n i (f : nat -> R) : (i < n)%nat -> sum n (fun k => id_entry i k * f k) = f i. Proof. apply (sum_delta_l RLr). Qed.
Lemma rsum_id_r n j (f : nat -> R) : (j < n)%nat -> sum n (fun k => f k * id_entry k j) = f j. Proof. apply (sum_delta_r RLr). Qed.
Lemma reflector_sym v b i j : reflector v b i j = reflector v b j i.
Proof. unfold reflector. rewrite id_sym. ring. Qed.
Lemma reflector_sq n v b i j : b * inner n v v = 2 \/ b = 0 -> (i < n)%nat -> (j < n)%nat -> prod_entry n (reflector v b) (reflector v b) i j = id_entry i j.
Proof.
  intros H Hi Hj. unfold prod_entry, reflector.
  rewrite (rsum_ext n _ (fun k => id_entry i k * (id_entry k j - b * (v k * v j)) - b * v i * (v k * id_entry k j - b * v j * (v k * v k)))) by (intros; cbn; ring).
  rewrite rsum_sub, rsum_mul_l, rsum_sub, rsum_id_l, rsum_id_r, rsum_mul_l by assumption. fold (inner n v v).
  destruct H as [H|H]; [|rewrite H; ring]. replace (v j - b * v j * inner n v v) with (v j * (1 - b * inner n v v)) by ring. rewrite H. ring.
Qed.
Lemma reflector_orth n v b : b * inner n v v = 2 \/ b = 0 -> orthogonal n (reflector v b).
Proof.
  intros H i j Hi Hj. rewrite <- (reflector_sq n v b i j H Hi Hj) at 1. split; [|rewrite <- (reflector_sq n v b i j H Hi Hj)]; unfold prod_entry; apply rsum_ext; intros k Hk; unfold transposed; cbn.
  - now rewrite (reflector_sym v b k i).
  - now rewrite (reflector_sym v b j k).
Qed.
Lemma reflector_apply n v b x i : (i < n)%nat -> apply_mat n (reflector v b) x i = x i - b * v i * inner n v x.
Proof.
  intros Hi. unfold apply_mat, reflector. rewrite (rsum_ext n _ (fun k => id_entry i k * x k - b * v i * (v k * x k))) by (intros; cbn; ring).
  rewrite rsum_sub, rsum_id_l, rsum_mul_l by exact Hi. reflexivity.
Qed.

(** What [householder_vec] computes, in closed form. *)
Definition tail_sq (n : nat) (x : nat -> R) : R := sum (n - 1) (fun i => x (1 + i)%nat * x (1 + i)%nat).
Definition hv_h (n : nat) (x : nat -> R) : R := x 0%nat - norm2 n x.
Definition hv_v (n : nat) (x : nat -> R) : nat -> R :=
  fun i => if Req_EM_T (tail_sq n x) 0 then (if (i =? 0)%nat then 1 else x i) else (if (i =? 0)%nat then 1 else x i / hv_h n x).
Definition hv_b (n : nat) (x : nat -> R) : R :=
  if Req_EM_T (tail_sq n x) 0 then (if Rle_dec 0 (x 0%nat) then 0 else -2) else 2 * (hv_h n x * hv_h n x) / (tail_sq n x + hv_h n x * hv_h n x).
Lemma inner_tail n x : (0 < n)%nat -> inner n x x = x 0%nat * x 0%nat + tail_sq n x.
Proof. intros H. destruct n as [|n]; [lia|]. unfold inner, tail_sq. rewrite rsum_first. replace (S n - 1)%nat with n by lia. reflexivity. Qed.
Lemma tail_nonneg n x : 0 <= tail_sq n x.
Proof. apply rsum_nonneg. intros. apply Rle_0_sqr. Qed.
Lemma tail_zero n x : tail_sq n x = 0 -> forall i, (0 < i < n)%nat -> x i = 0.
Proof.
  intros H i Hi. apply Rsqr_0_uniq. replace i with (1 + (i - 1))%nat by lia.
  apply (rsum_zero_nonneg (n - 1) (fun i => x (1 + i)%nat * x (1 + i)%nat)); [intros; apply Rle_0_sqr|exact H|lia].
Qed.
Lemma hv_h_neg n x : (0 < n)%nat -> tail_sq n x <> 0 -> hv_h n x < 0.
Proof.
  intros Hn H. unfold hv_h, norm2. rewrite inner_tail by exact Hn. pose proof (tail_nonneg n x). enough (x 0%nat < sqrt (x 0%nat * x 0%nat + tail_sq n x)) by lra.
  destruct (Rle_lt_dec 0 (x 0%nat)) as [L|L].
  - rewrite <- (sqrt_square (x 0%nat)) at 1 by exact L. apply sqrt_lt_1_alt. split; [apply Rle_0_sqr|]. lra.
  - pose proof (sqrt_pos (x 0%nat * x 0%nat + tail_sq n x)). lra.
Qed.
Lemma hv_facts n x : (0 < n)%nat -> tail_sq n x <> 0 ->
  let h := hv_h n x in let a := tail_sq n x in let u := norm2 n x in 0 < u /\ h <> 0 /\ h = x 0%nat - u /\ a = - h * (u + x 0%nat) /\ a + h * h = - 2 * u * h.
Proof.
  intros Hn H h a u. pose proof (hv_h_neg n x Hn H) as L. fold h in L. pose proof (norm2_sq n x) as Q. rewrite inner_tail in Q by exact Hn. fold u a in Q.
  assert (h = x 0%nat - u) as E by reflexivity. pose proof (norm2_nonneg n x) as N. fold u in N. pose proof (tail_nonneg n x) as T. fold a in T, H.
  assert (a = - h * (u + x 0%nat)) as EA by (rewrite E; lra). assert (u <> 0) by nra. repeat split; try lra. rewrite EA, E. ring.
Qed.
Lemma householder_some n (f : nat -> nat -> R) : (0 < n)%nat ->
  householder_vec (mk n 1 f) = Some (mk n 1 (fun i _ => hv_v n (column f 0) i), hv_b n (column f 0)).
Proof.
  intros Hn. set (x := column f 0). unfold householder_vec. cbn [nr nc mk]. fold (mk n 1 f). cbn [Nat.ltb Nat.leb]. rewrite msub_view_mk by lia. cbn [obind]. change (1 - 0)%nat with 1%nat. rewrite cdot_mk. cbn [obind].
  rewrite mget_in by lia. cbn [obind]. rewrite mset_mk by lia. cbn [obind].
  assert (inner (n - 1) (column (fun i j : nat => f (1 + i)%nat (0 + j)%nat) 0) (column (fun i j : nat => f (1 + i)%nat (0 + j)%nat) 0) = tail_sq n x) as -> by reflexivity.
  change (f 0%nat 0%nat) with (x 0%nat). unfold hv_v, hv_b. destruct (reqb_spec (tail_sq n x) 0) as [Z|Z]; cbn [andb].
  - destruct (Req_EM_T (tail_sq n x) 0) as [_|]; [|contradiction]. destruct (rleb_spec 0 (x 0%nat)) as [L|L].
    + destruct (Rle_dec 0 (x 0%nat)) as [_|]; [|contradiction]. f_equal. f_equal. apply mk_ext. intros i j Hi Hj. replace j with 0%nat by lia. rewrite andb_true_r. reflexivity.
    + destruct (Rle_dec 0 (x 0%nat)) as [|_]; [contradiction|]. destruct (rltb_spec (x 0%nat) 0) as [_|]; [|lra]. f_equal. f_equal. apply mk_ext. intros i j Hi Hj. replace j with 0%nat by lia. rewrite andb_true_r. reflexivity.
  - destruct (Req_EM_T (tail_sq n x) 0) as [|_]; [contradiction|].
    assert (sqrt (tail_sq n x + x 0%nat * x 0%nat) = norm2 n x) as -> by (unfold norm2; rewrite inner_tail by exact Hn; f_equal; ring).
    destruct (hv_facts n x Hn Z) as (U & HN & HE & HA & HB). set (h := hv_h n x) in *. set (u := norm2 n x) in *.
    assert ((if rleb (x 0%nat) 0 then Some (x 0%nat - u) else fdiv (- tail_sq n x) (x 0%nat + u)) = Some h) as ->.
    { destruct (rleb_spec (x 0%nat) 0) as [L|L]; [now rewrite HE|]. rewrite (fdiv_some field_ok_R) by (cbn; lra). f_equal. cbn. rewrite HA. field. lra. }
    cbn [obind]. rewrite mset_mk by lia. cbn [obind]. rewrite mdivs_mk by exact HN. cbn [obind]. rewrite (fdiv_some field_ok_R).
    2: { cbn. rewrite HB. intros C. apply Rmult_integral in C. destruct C as [C|C]; [lra|contradiction]. }
    cbn [obind]. f_equal. f_equal. apply mk_ext. intros i j Hi Hj. replace j with 0%nat by lia. rewrite !Nat.eqb_refl, !andb_true_r.
    destruct (Nat.eqb_spec i 0) as [->|N]; [field; exact HN|reflexivity].
Qed.
Definition bad_vec (n : nat) (x : nat -> R) : Prop := x 0%nat < 0 /\ forall i, (0 < i < n)%nat -> x i = 0.
Lemma tail_sq_zero n x : (forall i, (0 < i < n)%nat -> x i = 0) -> tail_sq n x = 0.
Proof. intros H. apply rsum_zero. intros k Hk. rewrite H by lia. ring. Qed.
Lemma hv_inner_v n x : (0 < n)%nat -> tail_sq n x <> 0 -> hv_b n x * inner n (hv_v n x) (hv_v n x) = 2.
Proof.
  intros Hn Z. rewrite inner_tail by exact Hn. unfold tail_sq at 1, hv_v, hv_b. destruct (Req_EM_T (tail_sq n x) 0) as [|_]; [contradiction|].
  destruct (hv_facts n x Hn Z) as (U & HN & HE & HA & HB). set (h := hv_h n x) in *. cbn [Nat.eqb].
  rewrite (rsum_ext (n - 1) _ (fun i => (/ h * / h) * (x (1 + i)%nat * x (1 + i)%nat))) by (intros i Hi; cbn [Nat.add Nat.eqb]; unfold Rdiv; ring).
  rewrite rsum_mul_l. change (sum (n - 1) _) with (tail_sq n x). field. split; [exact HN|]. rewrite HB. intros C. apply Rmult_integral in C. destruct C as [C|C]; [lra|contradiction].
Qed.
Lemma hv_inner_x n x : (0 < n)%nat -> tail_sq n x <> 0 -> inner n (hv_v n x) x = - norm2 n x.
Proof.
  intros Hn Z. destruct (hv_facts n x Hn Z) as (U & HN & HE & HA & HB). destruct n as [|n]; [lia|]. unfold inner. rewrite rsum_first. unfold hv_v. destruct (Req_EM_T (tail_sq (S n) x) 0) as [|_]; [contradiction|].
  set (h := hv_h (S n) x) in *. cbn [Nat.eqb]. rewrite (rsum_ext n _ (fun i => / h * (x (1 + i)%nat * x (1 + i)%nat))) by (intros i Hi; cbn [Nat.add Nat.eqb]; unfold Rdiv; ring).
  rewrite rsum_mul_l. assert (sum n (fun i => x (1 + i)%nat * x (1 + i)%nat) = tail_sq (S n) x) as -> by (unfold tail_sq; now replace (S n - 1)%nat with n by lia).
  rewrite HA. field. exact HN.
Qed.
Lemma hv_good n x : (0 < n)%nat -> ~ bad_vec n x -> hv_b n x * inner n (hv_v n x) (hv_v n x) = 2 \/ hv_b n x = 0.
Proof.
  intros Hn G. destruct (Req_EM_T (tail_sq n x) 0) as [Z|Z].
  - right. unfold hv_b. destruct (Req_EM_T (tail_sq n x) 0) as [_|]; [|contradiction]. destruct (Rle_dec 0 (x 0%nat)) as [L|L]; [reflexivity|]. exfalso. apply G. split; [lra|now apply tail_zero].
  - left. now apply hv_inner_v.
Qed.
Lemma hv_reflects n x i : (0 < n)%nat -> ~ bad_vec n x -> (i < n)%nat -> x i - hv_b n x * hv_v n x i * inner n (hv_v n x) x = if (i =? 0)%nat then norm2 n x else 0.
Proof.
  intros Hn G Hi. destruct (Req_EM_T (tail_sq n x) 0) as [Z|Z].
  - assert (0 <= x 0%nat) as L by (destruct (Rle_dec 0 (x 0%nat)); [assumption|]; exfalso; apply G; split; [lra|now apply tail_zero]).
    unfold hv_b. destruct (Req_EM_T (tail_sq n x) 0) as [_|]; [|contradiction]. destruct (Rle_dec 0 (x 0%nat)) as [_|]; [|contradiction].
    destruct (Nat.eqb_spec i 0) as [->|N]; [|rewrite (tail_zero n x Z) by lia; ring]. unfold norm2. rewrite inner_tail, Z by exact Hn. rewrite Rplus_0_r, sqrt_square by exact L. ring.
  - rewrite hv_inner_x by assumption. destruct (hv_facts n x Hn Z) as (U & HN & HE & HA & HB). unfold hv_b, hv_v. destruct (Req_EM_T (tail_sq n x) 0) as [|_]; [contradiction|].
    set (h := hv_h n x) in *. rewrite HB. set (u := norm2 n x) in *. destruct (Nat.eqb_spec i 0) as [->|N]; [|field; split; [exact HN|lra]].
    transitivity (x 0%nat - h); [field; split; [exact HN|lra]|lra].
Qed.
Lemma hv_v0 n x : hv_v n x 0 = 1.
Proof. unfold hv_v. destruct (Req_EM_T (tail_sq n x) 0); reflexivity. Qed.
Lemma hv_bad n x : (0 < n)%nat -> bad_vec n x -> hv_b n x = -2 /\ forall i, (i < n)%nat -> hv_v n x i = id_entry i 0.
Proof.
  intros Hn (L & T). pose proof (tail_sq_zero n x T) as Z. unfold hv_b, hv_v. destruct (Req_EM_T (tail_sq n x) 0) as [_|]; [|contradiction]. destruct (Rle_dec 0 (x 0%nat)); [lra|]. split; [reflexivity|].
  intros i Hi. unfold id_entry. destruct (Nat.eqb_spec i 0); [reflexivity|]. apply T. lia.
Qed.
(** Whatever the case, everything below the first component is annihilated. *)
Lemma hv_clears n x i : (0 < n)%nat -> (0 < i < n)%nat -> x i - hv_b n x * hv_v n x i * inner n (hv_v n x) x = 0.
Proof.
  intros Hn Hi. destruct (Req_EM_T (tail_sq n x) 0) as [Z|Z].
  - pose proof (tail_zero n x Z i Hi) as E. unfold hv_v at 1. destruct (Req_EM_T (tail_sq n x) 0) as [_|]; [|contradiction]. replace (i =? 0)%nat with false by lia. rewrite E. ring.
  - pose proof (hv_reflects n x i Hn) as H. replace (i =? 0)%nat with false in H by lia. apply H; [|lia]. intros (_ & T). apply Z. now apply tail_sq_zero.
Qed.

(** [givens_rotation] *)
Lemma inv_sqrt c : 0 < 1 + c * c. Proof. nra. Qed.
Lemma givens_some a b : exists c s, givens_rotation a b = Some (c, s) /\ c * c + s * s = 1 /\ (Rabs b < / 1000000000000 -> c = 1 /\ s = 0) /\ (/ 1000000000000 <= Rabs b -> s * a + c * b = 0).
Proof.
  unfold givens_rotation. destruct (rltb_spec (Rabs b) (/ 1000000000000)) as [L|L].
  - exists 1, 0. split; [reflexivity|]. split; [ring|]. split; [auto|]. intros. lra.
  - assert (0 < / 1000000000000) as E0 by (apply Rinv_0_lt_compat; lra).
    assert (b <> 0) as Nb by (intros ->; rewrite Rabs_R0 in L; lra).
    assert (forall c, let y := / sqrt (1 + c * c) in (1 + c * c) * (y * y) = 1 /\ sqrt (1 + c * c) <> 0) as K.
    { intros c y. pose proof (inv_sqrt c) as P. pose proof (sqrt_lt_R0 _ P) as Q. split; [|lra]. unfold y. rewrite <- (sqrt_sqrt (1 + c * c)) at 1 by lra. field. lra. }
    destruct (rltb_spec (Rabs a) (Rabs b)) as [M|M].
    + rewrite (fdiv_some field_ok_R) by exact Nb. cbn [obind]. change (tdiv (- a) b) with (- a / b). set (c := - a / b). destruct (K c) as (K1 & K2). rewrite (fdiv_some field_ok_R) by exact K2. cbn [obind]. change (tdiv 1 (sqrt (1 + c * c))) with (1 / sqrt (1 + c * c)).
      eexists _, _. split; [reflexivity|]. unfold Rdiv. rewrite Rmult_1_l. set (y := / sqrt (1 + c * c)) in *. split; [rewrite <- K1; ring|]. split; [intros; lra|]. intros _. unfold c. field. exact Nb.
    + assert (a <> 0) as Na by (intros ->; rewrite Rabs_R0 in M; pose proof (Rabs_pos_lt b Nb); lra).
      rewrite (fdiv_some field_ok_R) by exact Na. cbn [obind]. change (tdiv (- b) a) with (- b / a). set (c := - b / a). destruct (K c) as (K1 & K2). rewrite (fdiv_some field_ok_R) by exact K2. cbn [obind]. change (tdiv 1 (sqrt (1 + c * c))) with (1 / sqrt (1 + c * c)).
      eexists _, _. split; [reflexivity|]. unfold Rdiv. rewrite Rmult_1_l. set (y := / sqrt (1 + c * c)) in *. split; [rewrite <- K1; ring|]. split; [intros; lra|]. intros _. unfold c. field. exact Na.
Qed.
