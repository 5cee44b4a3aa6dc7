(** Choosing a maximal tree. *)
From Coq Require Import List Arith NArith Bool Lia ZifyBool ZifyNat ZifyN Permutation Sorted.
From Verif Require Import UtilModel UtilSpec UtilProofs PidModel PermModel PermSpec PermProofs PermProofs2 PermProofs3 PermProofs4 PermProps MatModel SnfModel SnfProofs2 GraphModel GraphSpec GraphProofs GraphProofs2 GraphProofs3 GraphProofs5 GraphProofs6 GraphProofs7.
Import ListNotations.
Open Scope nat_scope.

Lemma relab_edge_tree g p h b : relab g p h -> relab g p (RawG (g_data h) (g_n h) b).
Proof. intros [A B C D E]. constructor; auto. destruct A. constructor; auto. Qed.
Lemma relab_from_tree g p h b : relab g p h -> relab (RawG (g_data g) (g_n g) b) p h.
Proof. intros [A B C D E]. constructor; auto. Qed.
Lemma GI_tree g b : GI g -> GI (RawG (g_data g) (g_n g) b).
Proof. intros []. constructor; auto. Qed.

Lemma reorder_spec g : GI g -> g_tree g = true -> exists g' p, reorder g = Some (g', p) /\ (relab g p g' /\ pmap p 0 = 0) /\ g_tree g' = true /\
  (connected (g_n g) (edge g) -> dfs_ordered g -> dfs_ordered g' /\ forall r, sorted_at g' r).
Proof.
  intros HG HT. unfold reorder. pose proof (GI_pos _ HG) as Hp. replace (seq 0 (g_n g - 1)) with (rng 0 (g_n g - 1)) by (unfold rng; now rewrite Nat.sub_0_r).
  destruct (foldM_inv reorder_at (fun i st => (relab g (snd st) (fst st) /\ pmap (snd st) 0 = 0) /\ g_tree (fst st) = true /\
    (connected (g_n g) (edge g) -> dfs_ordered g -> dfs_ordered (fst st) /\ forall r, r < i -> sorted_at (fst st) r)) 0 (g_n g - 1) (g, identity)) as ([g' p] & E & [R Z] & T & D).
  - lia.
  - cbn [fst snd]. split; [split; [now apply relab_id|apply pmap_identity]|]. split; [exact HT|]. intros _ HD. split; [exact HD|]. intros; lia.
  - intros i [h q] Hi ([R Z] & T & D). cbn [fst snd] in *. destruct (reorder_at_spec g h q i R T ltac:(rewrite (L_n _ _ _ R); lia)) as (h' & q' & E & [R' Z'] & T' & D').
    exists (h', q'). split; [exact E|]. split; [split; [exact R'|cbn [fst snd]; rewrite Z'; lia]|]. split; [exact T'|]. intros HC HD. destruct (D HC HD) as [D1 D2]. destruct (D' (relab_connected _ _ _ R HC) D1 D2) as [D3 D4]. split; [exact D3|]. intros r Hr. apply D4. lia.
  - exists g', p. cbn [fst snd] in *. split; [exact E|]. split; [split; [exact R|exact Z]|]. split; [exact T|]. intros HC HD. destruct (D HC HD) as [D1 D2]. split; [exact D1|]. intros r. destruct (Nat.lt_ge_cases r (g_n g - 1)) as [K|K]; [now apply D2|].
    intros c1 c2 _ (A & B & _) Hlt (k & l & Hk & _). exfalso. pose proof (edge_lt g' r c2 (L_GI _ _ _ R) B) as (_ & Hn & _). rewrite (L_n _ _ _ R) in Hn. lia.
Qed.

Lemma maximal_tree_spec g : GI g ->
  match choose_maximal_tree g with
  | Some (h, p) => (exists v, good_base (g_n g) (edge g) v) /\ relab g p h /\ g_tree h = true /\
      (connected (g_n g) (edge g) -> dfs_ordered h /\ forall r, sorted_at h r)
  | None => forall v, ~ good_base (g_n g) (edge g) v
  end.
Proof.
  intros HG. unfold choose_maximal_tree. pose proof (base_spec g HG) as HB. destruct (choose_base_point g) as [[g1 p1]|]; cbn [obind fst snd]; [|exact HB].
  destruct HB as (v & Hv & R1 & T1 & _). destruct (pmul_spec p1 identity (L_nf _ _ _ R1) normal_identity) as (r1 & E1 & N1 & M1). rewrite E1. cbn [obind].
  assert (r1 = p1) by (apply normal_ext; [exact N1|apply R1|]; intros x; now rewrite M1, pmap_identity). subst r1.
  destruct (dfs_tree_spec g1 (L_GI _ _ _ R1)) as (g2 & p2 & E2 & [R2 _] & T2 & D2). rewrite E2. cbn [obind fst snd].
  destruct (relab_comp _ _ _ _ _ R1 R2) as (r2 & F2 & R12 & _). rewrite F2. cbn [obind]. set (g3 := RawG (g_data g2) (g_n g2) true). pose proof (relab_edge_tree _ _ _ true R12) as R3. fold g3 in R3.
  destruct (reorder_spec g3 (L_GI _ _ _ R3) eq_refl) as (g4 & p4 & E4 & [R4 _] & T4 & D4). rewrite E4. cbn [obind fst snd].
  destruct (relab_comp _ _ _ _ _ R3 R4) as (r4 & F4 & R14 & _). rewrite F4. cbn [obind]. split; [exists v; exact Hv|]. split; [exact R14|]. split; [exact T4|].
  intros HC. apply D4; [|exact D2]. apply (relab_connected _ _ _ R3 HC).
Qed.

(** The base point becomes vertex 0. *)
Lemma maximal_tree_base g h p : GI g -> choose_maximal_tree g = Some (h, p) -> exists v, good_base (g_n g) (edge g) v /\ pmap p v = 0.
Proof.
  intros HG. unfold choose_maximal_tree. pose proof (base_spec g HG) as HB. destruct (choose_base_point g) as [[g1 p1]|]; cbn [obind fst snd]; [|discriminate].
  destruct HB as (v & Hv & R1 & T1 & Z1). destruct (pmul_spec p1 identity (L_nf _ _ _ R1) normal_identity) as (r1 & E1 & N1 & M1). rewrite E1. cbn [obind].
  assert (r1 = p1) by (apply normal_ext; [exact N1|apply R1|]; intros x; now rewrite M1, pmap_identity). subst r1.
  destruct (dfs_tree_spec g1 (L_GI _ _ _ R1)) as (g2 & p2 & E2 & [R2 Z2] & T2 & D2). rewrite E2. cbn [obind fst snd].
  destruct (relab_comp _ _ _ _ _ R1 R2) as (r2 & F2 & R12 & M2). rewrite F2. cbn [obind]. set (g3 := RawG (g_data g2) (g_n g2) true). pose proof (relab_edge_tree _ _ _ true R12) as R3. fold g3 in R3.
  destruct (reorder_spec g3 (L_GI _ _ _ R3) eq_refl) as (g4 & p4 & E4 & [R4 Z4] & T4 & D4). rewrite E4. cbn [obind fst snd].
  destruct (relab_comp _ _ _ _ _ R3 R4) as (r4 & F4 & R14 & M4). rewrite F4. cbn [obind]. intros H. injection H as <- <-. exists v. split; [exact Hv|]. now rewrite M4, M2, Z1, Z2.
Qed.
(** The parent of a vertex. *)
Lemma largest_neighbour g j m : m <= j -> (exists i, i < m /\ edge g i j = true) -> exists i, i < m /\ edge g i j = true /\ forall k, i < k < m -> edge g k j = false.
Proof.
  induction m as [|m IH]; intros Hm (i & Hi & E); [lia|]. destruct (edge g m j) eqn:Em; [exists m; split; [lia|]; split; [exact Em|intros; lia]|].
  destruct IH as (i' & A & B & C); [lia|exists i; split; [destruct (Nat.eq_dec i m) as [->|]; [congruence|lia]|exact E]|]. exists i'. split; [lia|]. split; [exact B|]. intros k Hk. destruct (Nat.eq_dec k m) as [->|]; [exact Em|apply C; lia].
Qed.
Lemma parent g j : GI g -> connected (g_n g) (edge g) -> dfs_ordered g -> 0 < j -> j < g_n g -> exists i, child g i j /\ forall i', child g i' j -> i' = i.
Proof.
  intros HG HC HD H0 Hj. destruct (largest_neighbour g j j (Nat.le_refl _) (smaller_neighbour g j HG HC HD H0 Hj)) as (i & A & B & C). exists i. split; [split; auto|].
  intros i' (A' & B' & C'). destruct (Nat.lt_trichotomy i i') as [K|[K|K]]; [rewrite C in B' by lia; discriminate B'|congruence|rewrite C' in B by lia; discriminate B].
Qed.
