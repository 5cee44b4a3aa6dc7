(** Eigenvalues of block triangular matrices, over the real numbers. *)
From Coq Require Import List Arith Bool Lia ZifyBool Reals Lra.
From Verif Require Import PidModel MatModel MatSpec MatProofs MatProofs2 SnfModel RankModel RankProofs LuModel LuSpec LuProofs2 LuProofs3 NumModel NumSpec NumProofs HouseProofs HessProofs.
Import ListNotations.
Open Scope R_scope.

Lemma R01 : 1 <> 0. Proof. lra. Qed.
Lemma steinitz_R m r (v : nat -> nat -> R) : (m < r)%nat -> exists c, (forall j, (j < m)%nat -> sum r (fun i => c i * v i j) = 0) /\ exists i, (i < r)%nat /\ c i <> 0.
Proof. apply (steinitz RLr); [intros x y H N; cbn in *; apply Rmult_integral in H; tauto|exact R01|exact Req_EM_T]. Qed.
Lemma rsum_skip n p (f : nat -> R) : (p <= n)%nat -> sum (S n) f = f p + sum n (fun i => f (skip p i)). Proof. apply (sum_skip RLr); first [exact R01|exact Req_EM_T|intros x y H N; cbn in *; apply Rmult_integral in H; tauto]. Qed.
(** A square matrix with a nonzero vector in its left kernel has one in its right kernel. *)
Lemma left_right n (A : nat -> nat -> R) y : (exists i, (i < n)%nat /\ y i <> 0) -> (forall j, (j < n)%nat -> sum n (fun i => y i * A i j) = 0) ->
  exists x, (exists i, (i < n)%nat /\ x i <> 0) /\ forall i, (i < n)%nat -> sum n (fun j => A i j * x j) = 0.
Proof.
  intros (k & Hk & Yk) K. destruct n as [|n]; [lia|]. destruct (steinitz_R n (S n) (fun i j => A (skip k j) i) ltac:(lia)) as (x & X & NZ). exists x. split; [exact NZ|].
  set (w := fun i => sum (S n) (fun j => A i j * x j)). assert (forall i, (i < n)%nat -> w (skip k i) = 0) as W.
  { intros i Hi. rewrite <- (X i Hi). apply rsum_ext. intros; ring. }
  assert (forall i, (i < S n)%nat -> i <> k -> w i = 0) as W1.
  { intros i Hi N. destruct (Nat.lt_ge_cases i k) as [L|L].
    - rewrite <- (W i) by lia. unfold skip. now replace (i <? k)%nat with true by lia.
    - rewrite <- (W (i - 1)%nat) by lia. unfold skip. replace (i - 1 <? k)%nat with false by lia. f_equal. lia. }
  assert (sum (S n) (fun i => y i * w i) = 0) as Z.
  { unfold w. rewrite (rsum_ext (S n) _ (fun i => sum (S n) (fun j => y i * A i j * x j))) by (intros i Hi; rewrite <- rsum_mul_l; apply rsum_ext; intros; ring). rewrite rsum_swap. apply rsum_zero. intros j Hj.
    rewrite rsum_mul_r, K by exact Hj. ring. }
  rewrite (rsum_skip n k) in Z by lia. rewrite (rsum_zero n) in Z by (intros i Hi; rewrite W by exact Hi; ring). rewrite Rplus_0_r in Z. apply Rmult_integral in Z. destruct Z as [Z|Z]; [contradiction|].
  intros i Hi. destruct (Nat.eq_dec i k) as [->|N]; [exact Z|now apply W1].
Qed.
Definition minus_lambda (A : nat -> nat -> R) (l : R) : nat -> nat -> R := fun i j => A i j - l * id_entry i j.
Lemma eig_kernel n A l : eigenvalue n A l <-> exists x, (exists i, (i < n)%nat /\ x i <> 0) /\ forall i, (i < n)%nat -> sum n (fun j => minus_lambda A l i j * x j) = 0.
Proof.
  assert (forall x i, (i < n)%nat -> sum n (fun j => minus_lambda A l i j * x j) = apply_mat n A x i - l * x i) as E.
  { intros x i Hi. unfold apply_mat, minus_lambda. rewrite (rsum_ext n _ (fun j => A i j * x j - l * (id_entry i j * x j))) by (intros; ring). rewrite rsum_sub, rsum_mul_l, rsum_id_l by exact Hi. reflexivity. }
  split; intros (x & NZ & H); exists x; (split; [exact NZ|]); intros i Hi; specialize (H i Hi); rewrite E in * by exact Hi; lra.
Qed.
Lemma eig_trans n A l : eigenvalue n (transposed A) l <-> eigenvalue n A l.
Proof.
  assert (forall A, eigenvalue n A l -> eigenvalue n (transposed A) l) as G.
  { intros B H. apply eig_kernel in H. destruct H as (x & NZ & H). apply eig_kernel. destruct (left_right n (minus_lambda (transposed B) l) x NZ) as (y & NY & K).
    - intros j Hj. rewrite <- (H j Hj). apply rsum_ext. intros i Hi. unfold minus_lambda, transposed. rewrite (id_sym i j). ring.
    - exists y. now split. }
  split; [apply (G (transposed A))|apply G].
Qed.
Definition window (p : nat) (A : nat -> nat -> R) : nat -> nat -> R := fun i j => A (p + i)%nat (p + j)%nat.
Lemma eig_ext n A B l : same n n A B -> eigenvalue n A l -> eigenvalue n B l.
Proof. intros E (x & NZ & H). exists x. split; [exact NZ|]. intros i Hi. rewrite <- (H i Hi). unfold apply_mat. apply rsum_ext. intros j Hj. now rewrite E. Qed.
(** An eigenvalue of the leading block is one of the whole. *)
Lemma eig_lead n p A l : (p <= n)%nat -> (forall i j, (p <= i < n)%nat -> (j < p)%nat -> A i j = 0) -> eigenvalue p A l -> eigenvalue n A l.
Proof.
  intros Hp Z (x & (k & Hk & NZ) & H). exists (fun i => if (i <? p)%nat then x i else 0). split; [exists k; split; [lia|now replace (k <? p)%nat with true by lia]|].
  intros i Hi. unfold apply_mat. rewrite (rsum_split n p) by exact Hp. rewrite (rsum_zero (n - p)) by (intros j Hj; replace (p + j <? p)%nat with false by lia; ring).
  rewrite Rplus_0_r. rewrite (rsum_ext p _ (fun j => A i j * x j)) by (intros j Hj; now replace (j <? p)%nat with true by lia).
  destruct (Nat.ltb_spec i p) as [L|L]; [now apply H|]. rewrite Rmult_0_r. apply rsum_zero. intros j Hj. rewrite Z by lia. ring.
Qed.
Lemma eig_block n p A l : (p <= n)%nat -> (forall i j, (p <= i < n)%nat -> (j < p)%nat -> A i j = 0) -> (eigenvalue n A l <-> eigenvalue p A l \/ eigenvalue (n - p) (window p A) l).
Proof.
  intros Hp Z. split.
  - intros (x & (k & Hk & NZ) & H). assert ((exists i, (i < n - p)%nat /\ x (p + i)%nat <> 0) \/ forall i, (i < n - p)%nat -> x (p + i)%nat = 0) as [(i & Hi & N)|ZT].
    { destruct (find_nz Req_EM_T (n - p) (fun i => x (p + i)%nat)) as [C|C]; [now right|now left]. }
    + right. exists (fun i => x (p + i)%nat). split; [now exists i|]. intros a Ha. specialize (H (p + a)%nat ltac:(lia)). rewrite <- H. unfold apply_mat at 2. rewrite (rsum_split n p) by exact Hp.
      rewrite (rsum_zero p) by (intros j Hj; rewrite Z by lia; ring). rewrite Rplus_0_l. reflexivity.
    + left. exists x. split.
      * exists k. split; [|exact NZ]. destruct (Nat.lt_ge_cases k p); [assumption|]. exfalso. apply NZ. replace k with (p + (k - p))%nat by lia. apply ZT. lia.
      * intros i Hi. rewrite <- (H i ltac:(lia)). unfold apply_mat at 2. rewrite (rsum_split n p) by exact Hp. rewrite (rsum_zero (n - p)) by (intros j Hj; rewrite ZT by exact Hj; ring). rewrite Rplus_0_r. reflexivity.
  - intros [E|E]; [now apply (eig_lead n p)|]. apply eig_trans in E. apply eig_trans. destruct E as (x & (k & Hk & NZ) & H).
    exists (fun i => if (i <? p)%nat then 0 else x (i - p)%nat). split; [exists (p + k)%nat; split; [lia|]; replace (p + k <? p)%nat with false by lia; now replace (p + k - p)%nat with k by lia|].
    intros i Hi. unfold apply_mat, transposed. rewrite (rsum_split n p) by exact Hp. rewrite (rsum_zero p) by (intros j Hj; replace (j <? p)%nat with true by lia; ring). rewrite Rplus_0_l.
    rewrite (rsum_ext (n - p) _ (fun j => A (p + j)%nat i * x j)) by (intros j Hj; replace (p + j <? p)%nat with false by lia; now replace (p + j - p)%nat with j by lia).
    destruct (Nat.ltb_spec i p) as [L|L].
    + rewrite Rmult_0_r. apply rsum_zero. intros j Hj. rewrite Z by lia. ring.
    + rewrite <- (H (i - p)%nat) by lia. unfold apply_mat, transposed, window. apply rsum_ext. intros j Hj. now replace (p + (i - p))%nat with i by lia.
Qed.
(** Orders one and two. *)
Lemma eig_one A l : eigenvalue 1 A l <-> l = A 0%nat 0%nat.
Proof.
  split.
  - intros (x & (k & Hk & NZ) & H). replace k with 0%nat in NZ by lia. specialize (H 0%nat ltac:(lia)). unfold apply_mat in H. cbn [sum] in H. cbn in H. apply (Rmult_eq_reg_r (x 0%nat)); [lra|exact NZ].
  - intros ->. exists (fun _ => 1). split; [exists 0%nat; split; [lia|lra]|]. intros i Hi. replace i with 0%nat by lia. unfold apply_mat. cbn. ring.
Qed.
Lemma eig_two A l : eigenvalue 2 A l <-> l * l - (A 0%nat 0%nat + A 1%nat 1%nat) * l + (A 0%nat 0%nat * A 1%nat 1%nat - A 0%nat 1%nat * A 1%nat 0%nat) = 0.
Proof.
  set (a := A 0%nat 0%nat). set (b := A 0%nat 1%nat). set (c := A 1%nat 0%nat). set (d := A 1%nat 1%nat). split.
  - intros (x & (k & Hk & NZ) & H). pose proof (H 0%nat ltac:(lia)) as H0. pose proof (H 1%nat ltac:(lia)) as H1. unfold apply_mat in H0, H1. cbn [sum] in H0, H1. cbn in H0, H1. fold a b in H0. fold c d in H1.
    assert ((l * l - (a + d) * l + (a * d - b * c)) * x 0%nat = 0) as P0.
    { transitivity (- (l - d) * (0 + a * x 0%nat + b * x 1%nat - l * x 0%nat) - b * (0 + c * x 0%nat + d * x 1%nat - l * x 1%nat)); [ring|]. rewrite H0, H1. ring. }
    assert ((l * l - (a + d) * l + (a * d - b * c)) * x 1%nat = 0) as P1.
    { transitivity (- (l - a) * (0 + c * x 0%nat + d * x 1%nat - l * x 1%nat) - c * (0 + a * x 0%nat + b * x 1%nat - l * x 0%nat)); [ring|]. rewrite H0, H1. ring. }
    destruct k as [|[|k]]; [| |lia]; [apply Rmult_integral in P0|apply Rmult_integral in P1]; tauto.
  - intros P. assert (forall u v, (u <> 0 \/ v <> 0) -> a * u + b * v = l * u -> c * u + d * v = l * v -> eigenvalue 2 A l) as G.
    { intros u v NZ E0 E1. exists (fun i => match i with 0%nat => u | _ => v end). split.
      - destruct NZ; [exists 0%nat|exists 1%nat]; (split; [lia|assumption]).
      - intros [|[|i]] Hi; [| |lia]; unfold apply_mat; cbn [sum]; cbn; fold a b c d; lra. }
    destruct (Req_EM_T c 0) as [C|C].
    + assert ((l - a) * (l - d) = 0) as F by (rewrite C in P; lra). apply Rmult_integral in F. destruct F as [F|F].
      * apply (G 1 0); [left; lra|lra|rewrite C; lra].
      * destruct (Req_EM_T a l) as [AL|AL]; [apply (G 1 0); [left; lra|lra|rewrite C; lra]|]. apply (G b (l - a)); [right; lra|ring|rewrite C; nra].
    + apply (G (l - d) c); [now right|nra|ring].
Qed.
Lemma trace_split n p A : (p <= n)%nat -> trace n A = trace p A + trace (n - p) (window p A).
Proof. intros H. unfold trace. now rewrite (rsum_split n p) by exact H. Qed.
