(** The Gram-Schmidt orthogonalisation. *)
From Coq Require Import List Arith Bool Lia ZifyBool Reals Lra Wf_nat.
From Verif Require Import PidModel MatModel MatSpec MatProofs MatProofs2 SnfModel RankModel LuModel LuSpec LuProofs2 LuProofs3 NumModel NumSpec NumProofs.
Import ListNotations.
Open Scope R_scope.
#[local] Arguments inner : simpl never.

(** After [k] columns. *)
Fixpoint gso (n : nat) (A : nat -> nat -> R) (k : nat) : nat -> nat -> R :=
  match k with
  | 0%nat => A
  | S k => fun r c => if (c =? k)%nat then A r k - sum k (fun l => gso n A k r l * (inner n (column A k) (column (gso n A k) l) / inner n (column (gso n A k) l) (column (gso n A k) l)))
                      else gso n A k r c
  end.
Definition gvec (n : nat) (A : nat -> nat -> R) (c : nat) : nat -> R := fun r => gso n A (S c) r c.
Definition gmu (n : nat) (A : nat -> nat -> R) (c l : nat) : R := inner n (column A c) (gvec n A l) / inner n (gvec n A l) (gvec n A l).
Definition gsq (n : nat) (A : nat -> nat -> R) (c : nat) : R := inner n (gvec n A c) (gvec n A c).

Lemma gso_later n A k r c : (k <= c)%nat -> gso n A k r c = A r c.
Proof. induction k as [|k IH]; intros H; [reflexivity|]. cbn [gso]. destruct (Nat.eqb_spec c k); [lia|]. apply IH. lia. Qed.
Lemma gso_stable n A k r c : (c < k)%nat -> gso n A k r c = gvec n A c r.
Proof.
  induction k as [|k IH]; intros H; [lia|]. destruct (Nat.eq_dec c k) as [->|N]; [reflexivity|]. cbn [gso]. destruct (Nat.eqb_spec c k); [lia|]. apply IH. lia.
Qed.
Lemma gvec_eq n A c r : gvec n A c r = A r c - sum c (fun l => gvec n A l r * gmu n A c l).
Proof.
  unfold gvec at 1. cbn [gso]. rewrite Nat.eqb_refl. f_equal. apply rsum_ext. intros l Hl. unfold gmu.
  assert (forall i, column (gso n A c) l i = gvec n A l i) as E by (intros i; unfold column; now apply gso_stable).
  rewrite gso_stable by exact Hl. rewrite (inner_ext n (column A c) (column A c) (column (gso n A c) l) (gvec n A l)) by auto.
  now rewrite (inner_ext n (column (gso n A c) l) (gvec n A l) (column (gso n A c) l) (gvec n A l)) by auto.
Qed.
Lemma a_eq n A c r : A r c = gvec n A c r + sum c (fun l => gvec n A l r * gmu n A c l).
Proof. rewrite gvec_eq. ring. Qed.
(** Partial sums: column [c] minus its components along the first [j] vectors. *)
Definition gpart (n : nat) (A : nat -> nat -> R) (c j : nat) : nat -> R := fun r => A r c - sum j (fun l => gvec n A l r * gmu n A c l).
Lemma gpart_inner n A c j i : (forall l, (l < j)%nat -> inner n (gvec n A l) (gvec n A i) = 0) -> inner n (gpart n A c j) (gvec n A i) = inner n (column A c) (gvec n A i).
Proof.
  intros H. unfold gpart. rewrite inner_sub_l. rewrite (inner_sum_l n j (fun l r => gvec n A l r * gmu n A c l)).
  rewrite (rsum_zero j); [unfold column; ring|]. intros l Hl.
  rewrite (inner_ext n _ (fun r => gmu n A c l * gvec n A l r) _ (gvec n A i)) by (intros; ring). rewrite inner_scale_l, H by exact Hl. ring.
Qed.
Lemma g_orth n A c : (forall l, (l < c)%nat -> gsq n A l <> 0) -> forall j, (j < c)%nat -> inner n (gvec n A c) (gvec n A j) = 0.
Proof.
  induction c as [c IH] using (well_founded_induction lt_wf). intros H j Hj.
  rewrite (inner_ext n (gvec n A c) (gpart n A c c) (gvec n A j) (gvec n A j)) by (intros; (reflexivity || apply gvec_eq)).
  unfold gpart. rewrite inner_sub_l. rewrite (inner_sum_l n c (fun l r => gvec n A l r * gmu n A c l)).
  rewrite (rsum_single c j); [|exact Hj|].
  - rewrite (inner_ext n (fun r => gvec n A j r * gmu n A c j) (fun r => gmu n A c j * gvec n A j r) _ (gvec n A j)) by (intros; ring).
    rewrite inner_scale_l. unfold gmu, column. fold (gsq n A j). field. now apply H.
  - intros l Hl N. rewrite (inner_ext n _ (fun r => gmu n A c l * gvec n A l r) _ (gvec n A j)) by (intros; ring). rewrite inner_scale_l.
    enough (inner n (gvec n A l) (gvec n A j) = 0) as -> by ring. destruct (Nat.lt_ge_cases j l).
    + apply IH; [lia|intros; apply H; lia|lia].
    + rewrite inner_sym. apply IH; [lia|intros; apply H; lia|lia].
Qed.
Lemma g_orth2 n A m i j : (forall l, (l + 1 < m)%nat -> gsq n A l <> 0) -> (i < m)%nat -> (j < m)%nat -> i <> j -> inner n (gvec n A i) (gvec n A j) = 0.
Proof.
  intros H Hi Hj N. destruct (Nat.lt_ge_cases j i); [|rewrite inner_sym]; apply g_orth; try lia; intros; apply H; lia.
Qed.
(** Each vector is a combination of the given ones. *)
Lemma g_span n A c : exists s, s c = 1 /\ forall r, gvec n A c r = sum (S c) (fun l => A r l * s l).
Proof.
  induction c as [c IH] using (well_founded_induction lt_wf).
  assert (forall k, (k <= c)%nat -> exists s, forall r, sum k (fun l => gvec n A l r * gmu n A c l) = sum c (fun l => A r l * s l)) as K.
  { induction k as [|k IHk]; intros Hk.
    - exists (fun _ => 0). intros r. cbn [sum]. rewrite rsum_zero; [reflexivity|]. intros. ring.
    - destruct IHk as (s & Hs); [lia|]. destruct (IH k) as (t & _ & Ht); [lia|].
      exists (fun l => s l + (if (l <=? k)%nat then t l * gmu n A c k else 0)). intros r. rewrite rsum_S, Hs, Ht.
      rewrite (rsum_ext c (fun l => A r l * (s l + _)) (fun l => A r l * s l + A r l * (if (l <=? k)%nat then t l * gmu n A c k else 0))) by (intros; ring).
      rewrite rsum_add. f_equal. rewrite (rsum_split c (S k)) by lia. rewrite (rsum_zero (c - S k)).
      + rewrite <- rsum_mul_r, Rplus_0_r. apply rsum_ext. intros l Hl. replace (l <=? k)%nat with true by lia. ring.
      + intros l Hl. replace (S k + l <=? k)%nat with false by lia. ring. }
  destruct (K c (Nat.le_refl c)) as (s & Hs). exists (fun l => if (l =? c)%nat then 1 else - s l). split; [now rewrite Nat.eqb_refl|].
  intros r. rewrite gvec_eq, Hs, rsum_S, Nat.eqb_refl. rewrite (rsum_ext c (fun l => A r l * (if (l =? c)%nat then 1 else - s l)) (fun l => (-1) * (A r l * s l))).
  - rewrite rsum_mul_l. ring.
  - intros l Hl. replace (l =? c)%nat with false by lia. ring.
Qed.
(** The unit upper triangular matrix of the coefficients. *)
Definition gU (n : nat) (A : nat -> nat -> R) (l c : nat) : R := if (l <? c)%nat then gmu n A c l else if (l =? c)%nat then 1 else 0.
Lemma a_prod n A m r c : (c < m)%nat -> A r c = sum m (fun l => gvec n A l r * gU n A l c).
Proof.
  intros H. rewrite (a_eq n A c r), (rsum_split m (S c)) by lia. rewrite (rsum_zero (m - S c)).
  - rewrite rsum_S. unfold gU at 2. rewrite Nat.eqb_refl. replace (c <? c)%nat with false by lia.
    rewrite (rsum_ext c (fun l => gvec n A l r * gU n A l c) (fun l => gvec n A l r * gmu n A c l)); [ring|]. intros l Hl. unfold gU. now replace (l <? c)%nat with true by lia.
  - intros l Hl. unfold gU. replace (S c + l <? c)%nat with false by lia. replace (S c + l =? c)%nat with false by lia. ring.
Qed.
Lemma indep_pos n m A : independent n m A <-> forall c, (c < m)%nat -> gsq n A c <> 0.
Proof.
  split.
  - intros I c Hc E. destruct (g_span n A c) as (s & S1 & S2).
    assert ((if (c <=? c)%nat then s c else 0) = 0) as Z.
    + apply (I (fun l => if (l <=? c)%nat then s l else 0)); [|exact Hc]. intros r Hr. rewrite (rsum_split m (S c)) by lia. rewrite (rsum_zero (m - S c)).
      * rewrite (rsum_ext (S c) _ (fun l => A r l * s l)); [|intros l Hl; now replace (l <=? c)%nat with true by lia]. rewrite <- S2. rewrite (inner_zero n _ E r Hr). ring.
      * intros l Hl. replace (S c + l <=? c)%nat with false by lia. ring.
    + replace (c <=? c)%nat with true in Z by lia. lra.
  - intros P x H. assert (forall j, (j < m)%nat -> sum m (fun c => gU n A j c * x c) = 0) as Y.
    { intros j Hj. assert (gsq n A j * sum m (fun c => gU n A j c * x c) = 0) as E; [|apply Rmult_integral in E; destruct E as [E|E]; [now apply P in E|exact E]].
      transitivity (inner n (fun r => sum m (fun l => gvec n A l r * sum m (fun c => gU n A l c * x c))) (gvec n A j)).
      - rewrite (inner_sum_l n m (fun l r => gvec n A l r * sum m (fun c => gU n A l c * x c))). symmetry. rewrite (rsum_single m j); [|exact Hj|].
        + rewrite (inner_ext n _ (fun r => sum m (fun c => gU n A j c * x c) * gvec n A j r) _ (gvec n A j)) by (intros; ring). rewrite inner_scale_l. unfold gsq. ring.
        + intros l Hl N. rewrite (inner_ext n _ (fun r => sum m (fun c => gU n A l c * x c) * gvec n A l r) _ (gvec n A j)) by (intros; ring). rewrite inner_scale_l.
          rewrite (g_orth2 n A m) by (assumption || (intros; apply P; lia)). ring.
      - unfold inner. apply rsum_zero. intros r Hr. enough (sum m (fun l => gvec n A l r * sum m (fun c => gU n A l c * x c)) = 0) as -> by ring.
        rewrite <- (H r Hr). rewrite (rsum_ext m _ (fun l => sum m (fun c => gvec n A l r * (gU n A l c * x c)))) by (intros; now rewrite rsum_mul_l).
        rewrite rsum_swap. apply rsum_ext. intros c Hc. rewrite (a_prod n A m r c Hc). rewrite <- rsum_mul_r. apply rsum_ext. intros. ring. }
    apply (upper_zero field_ok_R m (gU n A)).
    + intros i Hi. unfold gU. rewrite Nat.eqb_refl. replace (i <? i)%nat with false by lia. cbn. lra.
    + intros i Hi. cbn. rewrite <- (Y i Hi). apply rsum_ext. intros c Hc. unfold upper_part, gU. destruct (Nat.leb_spec i c); [reflexivity|].
      replace (i <? c)%nat with false by lia. replace (i =? c)%nat with false by lia. cbn. ring.
Qed.
(** The vectors depend only on the columns up to their own. *)
Lemma gvec_ext n A B c : (forall i j, (i < n)%nat -> (j <= c)%nat -> A i j = B i j) -> forall r, (r < n)%nat -> gvec n A c r = gvec n B c r.
Proof.
  induction c as [c IH] using (well_founded_induction lt_wf). intros H r Hr. rewrite !gvec_eq. rewrite H by lia. f_equal. apply rsum_ext. intros l Hl.
  assert (forall i, (i < n)%nat -> gvec n A l i = gvec n B l i) as E by (intros; apply IH; [lia|intros; apply H; lia|assumption]).
  rewrite E by exact Hr. f_equal. unfold gmu. apply (f_equal2 Rdiv); apply inner_ext; auto. intros i Hi. unfold column. apply H; lia.
Qed.
Lemma gmu_ext n A B c l : (l <= c)%nat -> (forall i j, (i < n)%nat -> (j <= c)%nat -> A i j = B i j) -> gmu n A c l = gmu n B c l.
Proof.
  intros Hl H. assert (forall i, (i < n)%nat -> gvec n A l i = gvec n B l i) as E by (intros; apply gvec_ext; [intros; apply H; lia|assumption]).
  unfold gmu. apply (f_equal2 Rdiv); apply inner_ext; auto. intros i Hi. unfold column. apply H; lia.
Qed.

(** [gram_schmidt_without_normalize] *)
Lemma gsw_inner n m A i : (i < m)%nat -> (forall l, (l < i)%nat -> gsq n A l <> 0) -> forall j, (j <= i)%nat ->
  foldM (gsw_step i) (seq 0 j) (mk n m (gso n A i)) = Some (mk n m (fun r c => if (c =? i)%nat then gpart n A i j r else gso n A i r c)).
Proof.
  intros Hi P j Hj.
  apply (foldM_seq0 (gsw_step i) (fun j => mk n m (fun r c => if (c =? i)%nat then gpart n A i j r else gso n A i r c))).
  - apply mk_ext. intros r c _ _. destruct (Nat.eqb_spec c i) as [->|]; [|reflexivity]. rewrite gso_later by lia. unfold gpart. cbn. ring.
  - intros k Hk. set (F := fun r c => if (c =? i)%nat then gpart n A i k r else gso n A i r c).
    assert (forall r, column F k r = gvec n A k r) as Ek by (intros r; unfold column, F; replace (k =? i)%nat with false by lia; apply gso_stable; lia).
    assert (forall r, column F i r = gpart n A i k r) as Ei by (intros r; unfold column, F; now rewrite Nat.eqb_refl).
    rewrite gsw_step_mk; [|exact Hi|lia|].
    2: { rewrite (inner_ext n _ (gvec n A k) _ (gvec n A k)) by auto. apply P. lia. }
    f_equal. apply mk_ext. intros r c _ _. destruct (Nat.eqb_spec c i) as [->|N].
    + rewrite (inner_ext n (column F i) (gpart n A i k) (column F k) (gvec n A k)) by auto. rewrite (inner_ext n (column F k) (gvec n A k) (column F k) (gvec n A k)) by auto.
      rewrite gpart_inner by (intros l Hl; rewrite inner_sym; apply g_orth; [intros; apply P; lia|lia]).
      specialize (Ei r). specialize (Ek r). unfold column in Ei, Ek. rewrite Ei, Ek. unfold gpart. rewrite Nat.add_1_r, rsum_S. unfold gmu at 3. unfold Rdiv. ring.
    + unfold F. now replace (c =? i)%nat with false by lia.
Qed.
Lemma gsw_outer n m A i : (i < m)%nat -> (forall l, (l < i)%nat -> gsq n A l <> 0) ->
  foldM (gsw_step i) (rng 0 i) (mk n m (gso n A i)) = Some (mk n m (gso n A (S i))).
Proof.
  intros Hi P. unfold rng. rewrite Nat.sub_0_r. rewrite gsw_inner by (assumption || lia). f_equal. apply mk_ext. intros r c _ _.
  destruct (Nat.eqb_spec c i) as [->|N]; [rewrite gso_stable by lia; symmetry; apply gvec_eq|]. cbn [gso]. now replace (c =? i)%nat with false by lia.
Qed.
Lemma gsw_some_k n m A k : (k < m)%nat -> (forall l, (l + 1 < k + 1)%nat -> gsq n A l <> 0) ->
  foldM (fun M i => foldM (gsw_step i) (rng 0 i) M) (seq 1 k) (mk n m A) = Some (mk n m (gso n A (S k))).
Proof.
  intros Hk P. replace (mk n m A) with (mk n m (gso n A 1)).
  - apply (foldM_seq _ (fun k => mk n m (gso n A (S k))) 1 k). intros l Hl. cbn [Nat.add]. rewrite Nat.add_1_r. apply gsw_outer; [lia|]. intros; apply P; lia.
  - apply mk_ext. intros r c _ _. destruct (Nat.eq_dec c 0) as [->|]; [cbn; ring|apply gso_later; lia].
Qed.
Lemma gsw_some n m A : (0 < m)%nat -> (forall l, (l + 1 < m)%nat -> gsq n A l <> 0) ->
  gram_schmidt_without_normalize (mk n m A) = Some (mk n m (fun r c => gvec n A c r)).
Proof.
  intros Hm P. unfold gram_schmidt_without_normalize. cbn [nc mk]. fold (mk n m A). unfold rng at 2. rewrite gsw_some_k; [|lia|intros; apply P; lia].
  f_equal. apply mk_ext. intros r c _ Hc. apply gso_stable. lia.
Qed.
Lemma gsw_none n m A c : (0 < n)%nat -> (c + 1 < m)%nat -> gsq n A c = 0 -> (forall l, (l < c)%nat -> gsq n A l <> 0) -> gram_schmidt_without_normalize (mk n m A) = None.
Proof.
  intros Hn Hc Z P. unfold gram_schmidt_without_normalize. cbn [nc mk]. fold (mk n m A). unfold rng at 2. replace (m - 1)%nat with (c + S (m - 2 - c))%nat by lia.
  rewrite seq_app, foldM_app. rewrite gsw_some_k; [|lia|intros; apply P; lia]. cbn [obind seq foldM].
  enough (foldM (gsw_step (1 + c)) (rng 0 (1 + c)) (mk n m (gso n A (S c))) = None) as -> by reflexivity.
  unfold rng. replace (1 + c - 0)%nat with (S c) by lia. rewrite seq_S, foldM_app. cbn [Nat.add].
  assert (foldM (gsw_step (S c)) (seq 0 c) (mk n m (gso n A (S c))) = Some (mk n m (fun r d => if (d =? S c)%nat then gpart n A (S c) c r else gso n A (S c) r d))) as ->.
  { apply (foldM_seq0 (gsw_step (S c)) (fun j => mk n m (fun r d => if (d =? S c)%nat then gpart n A (S c) j r else gso n A (S c) r d))).
    - apply mk_ext. intros r d _ _. destruct (Nat.eqb_spec d (S c)) as [->|]; [|reflexivity]. rewrite gso_later by lia. unfold gpart. cbn. ring.
    - intros k Hk. set (F := fun r d => if (d =? S c)%nat then gpart n A (S c) k r else gso n A (S c) r d).
      assert (forall r, column F k r = gvec n A k r) as Ek by (intros r; unfold column, F; replace (k =? S c)%nat with false by lia; apply gso_stable; lia).
      assert (forall r, column F (S c) r = gpart n A (S c) k r) as Ei by (intros r; unfold column, F; now rewrite Nat.eqb_refl).
      rewrite gsw_step_mk; [|lia|lia|].
      2: { rewrite (inner_ext n _ (gvec n A k) _ (gvec n A k)) by auto. apply P. lia. }
      f_equal. apply mk_ext. intros r d _ _. destruct (Nat.eqb_spec d (S c)) as [->|N].
      + rewrite (inner_ext n (column F (S c)) (gpart n A (S c) k) (column F k) (gvec n A k)) by auto. rewrite (inner_ext n (column F k) (gvec n A k) (column F k) (gvec n A k)) by auto.
        rewrite gpart_inner by (intros l Hl; rewrite inner_sym; apply g_orth; [intros; apply P; lia|lia]).
        specialize (Ei r). specialize (Ek r). unfold column in Ei, Ek. rewrite Ei, Ek. unfold gpart. rewrite Nat.add_1_r, rsum_S. unfold gmu at 3. unfold Rdiv. ring.
      + unfold F. now replace (d =? S c)%nat with false by lia. }
  cbn [obind foldM]. rewrite gsw_step_none; [reflexivity|lia|lia|exact Hn|].
  rewrite <- Z. unfold gsq. apply inner_ext; intros r Hr; unfold column; replace (c =? S c)%nat with false by lia; apply gso_stable; lia.
Qed.

(** [gram_schmidt] *)
Definition gnorm (n : nat) (A : nat -> nat -> R) (k : nat) : nat -> nat -> R := fun r c => if (c <? k)%nat then gvec n A c r / norm2 n (gvec n A c) else A r c.
Lemma gsq_norm n A c : gsq n A c <> 0 <-> norm2 n (gvec n A c) <> 0.
Proof. unfold gsq. rewrite norm2_zero. reflexivity. Qed.
Lemma unit_inner n A k l : gsq n A l <> 0 -> inner n k (fun r => gvec n A l r / norm2 n (gvec n A l)) = inner n k (gvec n A l) / norm2 n (gvec n A l).
Proof.
  intros H. rewrite inner_sym. rewrite (inner_ext n _ (fun r => / norm2 n (gvec n A l) * gvec n A l r) _ k) by (intros; unfold Rdiv; ring).
  rewrite inner_scale_l, inner_sym. unfold Rdiv. ring.
Qed.
Lemma gs_inner n m A i : (i < m)%nat -> (forall l, (l < i)%nat -> gsq n A l <> 0) -> forall j, (j <= i)%nat ->
  foldM (gs_step i) (seq 0 j) (mk n m (gnorm n A i)) = Some (mk n m (fun r c => if (c =? i)%nat then gpart n A i j r else gnorm n A i r c)).
Proof.
  intros Hi P j Hj.
  apply (foldM_seq0 (gs_step i) (fun j => mk n m (fun r c => if (c =? i)%nat then gpart n A i j r else gnorm n A i r c))).
  - apply mk_ext. intros r c _ _. destruct (Nat.eqb_spec c i) as [->|]; [|reflexivity]. unfold gnorm. replace (i <? i)%nat with false by lia. unfold gpart. cbn. ring.
  - intros k Hk. set (F := fun r c => if (c =? i)%nat then gpart n A i k r else gnorm n A i r c).
    assert (forall r, column F k r = gvec n A k r / norm2 n (gvec n A k)) as Ek by (intros r; unfold column, F, gnorm; replace (k =? i)%nat with false by lia; now replace (k <? i)%nat with true by lia).
    assert (forall r, column F i r = gpart n A i k r) as Ei by (intros r; unfold column, F; now rewrite Nat.eqb_refl).
    rewrite gs_step_mk; [|exact Hi|lia].
    f_equal. apply mk_ext. intros r c _ _. destruct (Nat.eqb_spec c i) as [->|N].
    + rewrite (inner_ext n (column F i) (gpart n A i k) (column F k) (fun r => gvec n A k r / norm2 n (gvec n A k))) by auto.
      rewrite unit_inner by (apply P; lia).
      rewrite gpart_inner by (intros l Hl; rewrite inner_sym; apply g_orth; [intros; apply P; lia|lia]).
      specialize (Ei r). specialize (Ek r). unfold column in Ei, Ek. rewrite Ei, Ek. unfold gpart. rewrite Nat.add_1_r, rsum_S. unfold gmu at 3.
      rewrite <- (norm2_sq n (gvec n A k)). unfold column. field. apply gsq_norm, P. lia.
    + unfold F. now replace (c =? i)%nat with false by lia.
Qed.
Lemma gs_inner_norm n m A i r : (i < m)%nat -> column (fun r c => if (c =? i)%nat then gpart n A i i r else gnorm n A i r c) i r = gvec n A i r.
Proof. intros Hi. unfold column. rewrite Nat.eqb_refl. symmetry. apply gvec_eq. Qed.
Lemma gs_outer n m A i : (i < m)%nat -> (forall l, (l < S i)%nat -> gsq n A l <> 0) ->
  (do M <- foldM (gs_step i) (rng 0 i) (mk n m (gnorm n A i)); normalize_col M i) = Some (mk n m (gnorm n A (S i))).
Proof.
  intros Hi P. unfold rng. rewrite Nat.sub_0_r. rewrite gs_inner; [|exact Hi|intros; apply P; lia|lia]. cbn [obind].
  assert (forall F, (forall r, column F i r = gvec n A i r) -> norm2 n (column F i) = norm2 n (gvec n A i)) as E by (intros F HF; unfold norm2; f_equal; apply inner_ext; auto).
  rewrite normalize_mk; [|exact Hi|rewrite E by (intros; now apply gs_inner_norm with (m := m)); apply gsq_norm, P; lia].
  rewrite E by (intros; now apply gs_inner_norm with (m := m)). f_equal. apply mk_ext. intros r c _ _. unfold gnorm. rewrite Nat.eqb_refl.
  destruct (Nat.eqb_spec c i) as [->|N]; [replace (i <? S i)%nat with true by lia; f_equal; symmetry; apply gvec_eq|].
  now replace (c <? S i)%nat with (c <? i)%nat by lia.
Qed.
Lemma gs_outer_none n m A i : (0 < n)%nat -> (i < m)%nat -> (forall l, (l < i)%nat -> gsq n A l <> 0) -> gsq n A i = 0 ->
  (do M <- foldM (gs_step i) (rng 0 i) (mk n m (gnorm n A i)); normalize_col M i) = None.
Proof.
  intros Hn Hi P Z. unfold rng. rewrite Nat.sub_0_r. rewrite gs_inner; [|exact Hi|intros; apply P; lia|lia]. cbn [obind].
  apply normalize_none; [exact Hi|exact Hn|]. apply norm2_zero. rewrite <- Z. unfold gsq. apply inner_ext; intros r _; now apply gs_inner_norm with (m := m).
Qed.
Lemma gs_unfold n m A : (0 < m)%nat -> gram_schmidt (mk n m A) = foldM (fun M i => do M <- foldM (gs_step i) (rng 0 i) M; normalize_col M i) (seq 0 m) (mk n m A).
Proof.
  intros Hm. unfold gram_schmidt. destruct m as [|m]; [lia|]. cbn [seq foldM]. change (rng 0 0) with (@nil nat). cbn [foldM obind].
  destruct (normalize_col (mk n (S m) A) 0) as [M|] eqn:E; [|reflexivity]. cbn [obind].
  enough (nc M = S m) as -> by (unfold rng at 2; now replace (S m - 1)%nat with m by lia).
  unfold normalize_col, divcol in E. rewrite mcol_mk in E by lia. cbn [obind] in E. rewrite two_norm_mk in E. cbn [obind] in E.
  destruct (Req_EM_T (norm2 n (column (fun i _ => A i 0%nat) 0)) 0) as [Z|Z].
  - destruct n as [|n].
    + unfold mdivs in E. cbn in E. unfold wcol in E. cbn in E. injection E as <-. reflexivity.
    + rewrite Z, mdivs_none in E by lia. discriminate.
  - rewrite mdivs_mk in E by exact Z. cbn [obind] in E. rewrite wcol_mk in E by lia. injection E as <-. reflexivity.
Qed.
Lemma gs_some_k n m A k : (k <= m)%nat -> (forall l, (l < k)%nat -> gsq n A l <> 0) ->
  foldM (fun M i => do M <- foldM (gs_step i) (rng 0 i) M; normalize_col M i) (seq 0 k) (mk n m A) = Some (mk n m (gnorm n A k)).
Proof.
  intros Hk P. apply (foldM_seq0 _ (fun k => mk n m (gnorm n A k))); [reflexivity|]. intros l Hl. rewrite Nat.add_1_r. apply gs_outer; [lia|]. intros; apply P; lia.
Qed.
Lemma gs_some n m A : (0 < m)%nat -> (forall l, (l < m)%nat -> gsq n A l <> 0) ->
  gram_schmidt (mk n m A) = Some (mk n m (fun r c => gvec n A c r / norm2 n (gvec n A c))).
Proof.
  intros Hm P. rewrite gs_unfold by exact Hm. rewrite gs_some_k by (auto with arith). f_equal. apply mk_ext. intros r c _ Hc. unfold gnorm. now replace (c <? m)%nat with true by lia.
Qed.
Lemma gs_none n m A c : (0 < n)%nat -> (c < m)%nat -> gsq n A c = 0 -> (forall l, (l < c)%nat -> gsq n A l <> 0) -> gram_schmidt (mk n m A) = None.
Proof.
  intros Hn Hc Z P. rewrite gs_unfold by lia. replace m with (c + S (m - 1 - c))%nat at 1 by lia. rewrite seq_app, foldM_app, gs_some_k by (lia || exact P). cbn [obind seq foldM].
  rewrite Nat.add_0_l. now rewrite gs_outer_none by assumption.
Qed.
Lemma gsq_dec n A m : (forall c, (c < m)%nat -> gsq n A c <> 0) \/ exists c, (c < m)%nat /\ gsq n A c = 0 /\ forall l, (l < c)%nat -> gsq n A l <> 0.
Proof.
  induction m as [|m [IH|(k & Hk & IH)]]; [left; lia| |right; exists k; split; [lia|exact IH]].
  destruct (Req_EM_T (gsq n A m) 0) as [E|E]; [right; exists m; auto|left]. intros k Hk. destruct (Nat.eq_dec k m) as [->|]; [exact E|apply IH; lia].
Qed.
