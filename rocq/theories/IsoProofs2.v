(** Matrices that agree up to signed permutations of rows and columns have corresponding kernels and images. *)
From Coq Require Import List Arith ZArith Bool Lia ZifyBool ZifyNat.
From Verif Require Import PidModel LinModel LinSpec LinProofs3 MatModel MatSpec HomModel HomSpec IsoProofs.
Import ListNotations.
Open Scope nat_scope.

Lemma zsum_S n (f : nat -> Z) : sum (S n) f = (sum n f + f n)%Z. Proof. reflexivity. Qed.
Lemma zsum_ext n (f g : nat -> Z) : (forall k, k < n -> f k = g k) -> sum n f = sum n g.
Proof. induction n as [|n IH]; intros H; [reflexivity|]. rewrite !zsum_S, IH, H by (intros; apply H || lia; lia). reflexivity. Qed.
Lemma zsum_add n (f g : nat -> Z) : sum n (fun k => f k + g k)%Z = (sum n f + sum n g)%Z.
Proof. induction n as [|n IH]; [reflexivity|]. rewrite !zsum_S, IH. lia. Qed.
Lemma zsum_mul n a (f : nat -> Z) : sum n (fun k => a * f k)%Z = (a * sum n f)%Z.
Proof. induction n as [|n IH]; [cbn; lia|]. rewrite !zsum_S, IH. lia. Qed.
Lemma zsum_zero n (f : nat -> Z) : (forall k, k < n -> f k = 0%Z) -> sum n f = 0%Z.
Proof. induction n as [|n IH]; intros H; [reflexivity|]. rewrite zsum_S, IH, H by (intros; apply H || lia; lia). reflexivity. Qed.
Lemma zsum_swap n m (f : nat -> nat -> Z) : sum n (fun i => sum m (f i)) = sum m (fun j => sum n (fun i => f i j)).
Proof. induction n as [|n IH]; [symmetry; now apply zsum_zero|]. rewrite zsum_S, IH, <- zsum_add. now apply zsum_ext. Qed.
Lemma zsum_one n (f : nat -> Z) p : p < n -> (forall k, k < n -> k <> p -> f k = 0%Z) -> sum n f = f p.
Proof.
  induction n as [|n IH]; intros Hp H; [lia|]. rewrite zsum_S. destruct (Nat.eq_dec p n) as [->|N].
  - rewrite zsum_zero by (intros k Hk; apply H; lia). lia.
  - rewrite IH, (H n) by (try lia; intros; apply H; lia). lia.
Qed.
(** A signed permutation of [n] indices: [p] and [q] inverse to each other, [e] the signs. *)
Definition signed_perm (n : nat) (p q : nat -> nat) (e : nat -> Z) : Prop :=
  (forall j, j < n -> p j < n /\ q (p j) = j) /\ (forall j, j < n -> q j < n /\ p (q j) = j) /\ forall j, j < n -> (e j * e j = 1)%Z.
Lemma zsum_perm n p q e (f : nat -> Z) : signed_perm n p q e -> sum n (fun j => f (p j)) = sum n f.
Proof.
  intros (P & Q & _). rewrite (zsum_ext n (fun j => f (p j)) (fun j => sum n (fun k => if k =? p j then f k else 0%Z))).
  - rewrite zsum_swap. apply zsum_ext. intros k Hk. destruct (Q k Hk) as [Q1 Q2]. rewrite (zsum_one n _ (q k) Q1).
    + now rewrite Q2, Nat.eqb_refl.
    + intros j Hj N. destruct (Nat.eqb_spec k (p j)) as [->|]; [|reflexivity]. exfalso. apply N. symmetry. now apply P.
  - intros j Hj. destruct (P j Hj) as [P1 _]. rewrite (zsum_one n _ (p j) P1); [now rewrite Nat.eqb_refl|]. intros k _ N. now replace (k =? p j) with false by lia.
Qed.
Definition pull (n : nat) (p : nat -> nat) (e : nat -> Z) (x : list Z) : list Z := map (fun j => e j * nth (p j) x 0)%Z (seq 0 n).
Lemma pull_length n p e x : length (pull n p e x) = n. Proof. unfold pull. now rewrite map_length, seq_length. Qed.
Lemma pull_nth n p e x j : j < n -> nth j (pull n p e x) 0%Z = (e j * nth (p j) x 0)%Z.
Proof. intros H. unfold pull. rewrite (nth_indep _ 0%Z (e 0%nat * nth (p 0%nat) x 0)%Z) by (rewrite map_length, seq_length; lia). rewrite (map_nth (fun j => e j * nth (p j) x 0)%Z). now rewrite seq_nth. Qed.
Lemma pull_add n p q e x y : signed_perm n p q e -> length x = n -> length y = n -> pull n p e (gadd x y) = gadd (pull n p e x) (pull n p e y).
Proof.
  intros (P & _) Lx Ly. apply (nth_ext _ _ 0%Z 0%Z); [rewrite gadd_length, !pull_length; lia|]. intros j Hj. rewrite pull_length in Hj.
  rewrite gadd_nth by now rewrite !pull_length. rewrite !pull_nth by lia. rewrite gadd_nth by congruence. lia.
Qed.
Lemma pull_onto n p q e x : signed_perm n p q e -> length x = n -> exists x', length x' = n /\ pull n p e x' = x.
Proof.
  intros (P & Q & E) Lx. exists (map (fun j => e (q j) * nth (q j) x 0)%Z (seq 0 n)). rewrite map_length, seq_length. split; [reflexivity|].
  apply (nth_ext _ _ 0%Z 0%Z); [rewrite pull_length; lia|]. intros j Hj. rewrite pull_length in Hj. rewrite pull_nth by lia. destruct (P j Hj) as [P1 P2].
  rewrite (nth_indep _ 0%Z (e (q 0%nat) * nth (q 0%nat) x 0)%Z) by (rewrite map_length, seq_length; lia). rewrite (map_nth (fun j => e (q j) * nth (q j) x 0)%Z). rewrite seq_nth by lia. cbn [Nat.add]. rewrite P2, Z.mul_assoc, E by lia. lia.
Qed.

Section Pair.
  Variables (d d' : mat Z) (p q p2 q2 : nat -> nat) (e e2 : nat -> Z).
  Hypothesis Hr : nr d' = nr d.
  Hypothesis Hc : nc d' = nc d.
  Hypothesis HP : signed_perm (nr d) p q e.
  Hypothesis HP2 : signed_perm (nc d) p2 q2 e2.
  Hypothesis HD : forall i j, i < nr d -> j < nc d -> ent d' (p i) (p2 j) = (e i * e2 j * ent d i j)%Z.
  Set Default Proof Using "All".
  Lemma apply_pair x i : i < nr d -> apply_at d' x (p i) = (e i * apply_at d (pull (nc d) p2 e2 x) i)%Z.
  Proof.
    intros Hi. unfold apply_at. rewrite Hc, <- (zsum_perm (nc d) p2 q2 e2 (fun j => ent d' (p i) j * nth j x 0)%Z HP2), <- zsum_mul. apply zsum_ext. intros j Hj. rewrite HD, pull_nth by assumption. lia.
  Qed.
  Lemma kernel_pair x : length x = nc d -> (in_kernel d (pull (nc d) p2 e2 x) <-> in_kernel d' x).
  Proof.
    intros Lx. destruct HP as (P & Q & E). unfold in_kernel. rewrite pull_length. split; intros (_ & H); (split; [lia|]).
    - intros i Hi. rewrite Hr in Hi. destruct (Q i Hi) as [Q1 Q2]. rewrite <- Q2, apply_pair, H by assumption. lia.
    - intros i Hi. specialize (H (p i)). rewrite apply_pair in H by assumption. rewrite Hr in H. specialize (H (proj1 (P i Hi))). specialize (E i Hi). nia.
  Qed.
  Lemma image_pair x : length x = nr d -> (in_image d (pull (nr d) p e x) <-> in_image d' x).
  Proof.
    intros Lx. destruct HP as (P & Q & E). unfold in_image. rewrite pull_length. split; intros (_ & y & Ly & H); (split; [lia|]).
    - destruct (pull_onto _ _ _ _ y HP2 Ly) as (y' & Ly' & Ey). exists y'. split; [lia|]. intros i Hi. rewrite Hr in Hi. destruct (Q i Hi) as [Q1 Q2]. rewrite <- Q2, apply_pair by assumption. rewrite Ey.
      rewrite <- H by assumption. rewrite pull_nth by assumption. rewrite Z.mul_assoc, E by assumption. lia.
    - exists (pull (nc d) p2 e2 y). split; [apply pull_length|]. intros i Hi. rewrite pull_nth by assumption. rewrite H by (rewrite Hr; apply P, Hi). rewrite apply_pair by assumption. rewrite Z.mul_assoc, E by assumption. lia.
  Qed.
End Pair.
