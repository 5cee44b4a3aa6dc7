(** Depth first numbering. *)
From Coq Require Import List Arith NArith Bool Lia ZifyBool ZifyNat ZifyN Permutation.
From Verif Require Import UtilModel UtilSpec UtilProofs PidModel PermModel PermSpec PermProofs PermProofs2 PermProofs3 PermProofs4 PermProps MatModel SnfModel SnfProofs2 GraphModel GraphSpec GraphProofs GraphProofs2 GraphProofs3 GraphProofs5.
Import ListNotations.
Open Scope nat_scope.

(** Position [j] is numbered depth first: a vertex with a later neighbour is not overtaken. *)
Definition dfs_pos (g : rawg) (j : nat) : Prop := forall i k, i < j -> j < k -> edge g i k = true -> exists l, i <= l < j /\ edge g l j = true.
Definition dfs_ordered (g : rawg) : Prop := forall j, dfs_pos g j.

Lemma find_first {A} (f : A -> bool) l x : find f l = Some x -> In x l /\ f x = true.
Proof. apply find_some. Qed.
Lemma trans_lt j k j' x : j' < j -> j < k -> trans_map j k x = x /\ x <= j' \/ j' < x /\ j' < trans_map j k x \/ (x <= j' /\ trans_map j k x = x).
Proof. intros. unfold trans_map. destruct (Nat.eqb_spec x j), (Nat.eqb_spec x k); lia. Qed.

Lemma dfs_pos_swap g h t j k j' : relab g t h -> (forall x, pmap t x = trans_map j k x) -> j' < j -> j < k -> dfs_pos g j' -> dfs_pos h j'.
Proof.
  intros R M H1 H2 HD i c Hi Hc E.
  assert (F : forall x, x <= j' -> pmap t x = x) by (intros x Hx; rewrite M; unfold trans_map; destruct (Nat.eqb_spec x j), (Nat.eqb_spec x k); lia).
  destruct (relab_onto g t h c R) as (c' & Ec & _). assert (Hc' : j' < c') by (destruct (Nat.lt_ge_cases j' c') as [|K]; [assumption|]; rewrite (F c' K) in Ec; lia).
  rewrite <- Ec, <- (F i ltac:(lia)), (L_edge _ _ _ R) in E. destruct (HD i c' Hi Hc' E) as (l & Hl & El). exists l. split; [exact Hl|].
  rewrite <- (F l ltac:(lia)), <- (F j' ltac:(lia)), (L_edge _ _ _ R). exact El.
Qed.

(** The inner loop, coming down from [m]: no vertex in m..j-1 has a neighbour at or after j. *)
Lemma dfs_inner_spec g0 j : forall m g p, relab g0 p g -> j < g_n g -> m <= j -> (forall i k, m <= i < j -> j <= k -> edge g i k = false) -> (forall j', j' < j -> dfs_pos g j') ->
  exists g' p', dfs_inner j (rev (seq 0 m)) g p = Some (g', p') /\ (relab g0 p' g' /\ forall x, pmap p x < j -> pmap p' x = pmap p x) /\ g_tree g' = g_tree g /\ forall j', j' <= j -> dfs_pos g' j'.
Proof.
  induction m as [|m IH]; intros g p R Hj Hm Hno HD.
  - cbn [seq rev dfs_inner]. exists g, p. split; [reflexivity|]. split; [split; [exact R|auto]|]. split; [reflexivity|]. intros j' Hj'. destruct (Nat.eq_dec j' j) as [->|]; [|apply HD; lia].
    intros i k Hi Hk E. rewrite Hno in E by lia. discriminate E.
  - rewrite seq_S, rev_app_distr. cbn [rev app dfs_inner Nat.add]. pose proof (L_GI _ _ _ R) as HG. rewrite contains_edge by (assumption || lia). cbn [obind]. destruct (edge g m j) eqn:Ec.
    + exists g, p. split; [reflexivity|]. split; [split; [exact R|auto]|]. split; [reflexivity|]. intros j' Hj'. destruct (Nat.eq_dec j' j) as [->|]; [|apply HD; lia].
      intros i k Hi Hk E. exists m. split; [|exact Ec]. split; [|lia]. destruct (Nat.lt_ge_cases m i) as [K|K]; [|exact K]. rewrite Hno in E by lia. discriminate E.
    + unfold fetch_right. rewrite adj_spec by (assumption || lia). cbn [obind]. destruct (find _ _) as [k|] eqn:Ef.
      * apply find_some in Ef. destruct Ef as [Hk Hjk]. apply filter_In in Hk. destruct Hk as [Hk Emk]. apply in_seq in Hk. apply Nat.ltb_lt in Hjk.
        destruct (transposition_spec j k ltac:(lia)) as (t & Et & Ht & M & _). rewrite Et. cbn [obind].
        assert (HS : forall x, pmap t x <> x -> x < g_n g) by (intros x; rewrite M; unfold trans_map; destruct (Nat.eqb_spec x j), (Nat.eqb_spec x k); lia).
        destruct (action_relab g t HG Ht HS) as (h & Eh & Rh & Th). rewrite Eh. cbn [obind snd fst]. destruct (relab_comp g0 p g t h R Rh) as (r & Er & Rr & Mr). rewrite Er. cbn [obind].
        exists h, r. split; [reflexivity|]. split; [split; [exact Rr|intros x Hx; rewrite Mr, M; unfold trans_map; destruct (Nat.eqb_spec (pmap p x) j), (Nat.eqb_spec (pmap p x) k); lia]|]. split; [exact Th|]. intros j' Hj'.
        destruct (Nat.eq_dec j' j) as [->|]; [|apply (dfs_pos_swap g h t j k); auto; [lia|apply HD; lia]].
        intros i c Hi Hc E. exists m. assert (Ti : forall x, x < j -> pmap t x = x) by (intros x Hx; rewrite M; unfold trans_map; destruct (Nat.eqb_spec x j), (Nat.eqb_spec x k); lia).
        split.
        -- split; [|lia]. destruct (Nat.lt_ge_cases m i) as [K|K]; [|exact K]. exfalso. destruct (relab_onto g t h c Rh) as (c' & Ecc & _). rewrite <- Ecc, <- (Ti i ltac:(lia)), (L_edge _ _ _ Rh) in E.
           rewrite Hno in E; [discriminate E|lia|]. destruct (Nat.lt_ge_cases c' j) as [K2|K2]; [rewrite (Ti c' K2) in Ecc; lia|exact K2].
        -- replace j with (pmap t k) by (rewrite M; unfold trans_map; rewrite Nat.eqb_refl; destruct (Nat.eqb_spec k j); lia). rewrite <- (Ti m ltac:(lia)). rewrite (L_edge _ _ _ Rh). exact Emk.
      * cbn [fst snd obind]. apply IH; auto; [lia|]. intros i c Hi Hc. destruct (Nat.eq_dec i m) as [->|]; [|apply Hno; lia]. destruct (edge g m c) eqn:E; [|reflexivity]. exfalso.
        destruct (Nat.eq_dec c j) as [->|Hcj]; [congruence|]. pose proof (edge_lt g m c HG E) as (_ & Hcn & _). pose proof (find_none _ _ Ef c ltac:(apply filter_In; split; [apply in_seq; lia|exact E])) as K. cbv beta in K. lia.
Qed.
Lemma dfs_tree_spec g : GI g -> exists g' p, dfs_tree g = Some (g', p) /\ (relab g p g' /\ pmap p 0 = 0) /\ g_tree g' = g_tree g /\ dfs_ordered g'.
Proof.
  intros HG. unfold dfs_tree. pose proof (GI_pos _ HG) as Hp.
  destruct (foldM_inv (fun (st : rawg * perm) j => dfs_inner j (rev (seq 0 j)) (fst st) (snd st))
    (fun j st => (relab g (snd st) (fst st) /\ pmap (snd st) 0 = 0) /\ g_tree (fst st) = g_tree g /\ forall j', j' < j -> dfs_pos (fst st) j') 1 (g_n g) (g, identity)) as ([g' p] & E & [R Z] & T & D).
  - lia.
  - cbn [fst snd]. split; [split; [now apply relab_id|apply pmap_identity]|]. split; [reflexivity|]. intros j' Hj' i k Hi. lia.
  - intros j [h q] Hj ([R Z] & T & D). cbn [fst snd] in *. destruct (dfs_inner_spec g j j h q R ltac:(rewrite (L_n _ _ _ R); lia) ltac:(lia) ltac:(intros; lia) D) as (h' & q' & E & [R' Z'] & T' & D').
    exists (h', q'). split; [exact E|]. split; [split; [exact R'|cbn [fst snd]; rewrite Z'; lia]|]. split; [cbn [fst]; congruence|]. intros j' Hj'. apply D'. lia.
  - exists g', p. cbn [fst snd] in *. split; [exact E|]. split; [split; [exact R|exact Z]|]. split; [exact T|]. intros j i k Hi Hk Ee. pose proof (edge_lt g' i k (L_GI _ _ _ R) Ee) as (_ & Hkn & _). rewrite (L_n _ _ _ R) in Hkn. apply (D j ltac:(lia) i k); auto.
Qed.

(** In a connected graph, depth-first numbered, every vertex but 0 has a smaller neighbour. *)
Lemma path_crossing r (v : nat -> bool) x y : path r x y -> v x = true -> v y = false -> exists a b, v a = true /\ v b = false /\ r a b = true.
Proof.
  intros P Hx Hy. induction P as [x|x y z P IH E]; [congruence|]. destruct (v y) eqn:Ey; [exists y, z; auto|]. now apply IH.
Qed.
Lemma smaller_neighbour g j : GI g -> connected (g_n g) (edge g) -> dfs_ordered g -> 0 < j -> j < g_n g -> exists i, i < j /\ edge g i j = true.
Proof.
  intros HG HC HD H0 Hj. destruct (path_crossing (edge g) (fun x => x <? j) 0 j) as (a & b & Ha & Hb & E); [apply HC; lia|lia|lia|].
  destruct (Nat.eq_dec b j) as [->|]; [exists a; split; [lia|exact E]|]. destruct (HD j a b ltac:(lia) ltac:(lia) E) as (l & Hl & El). exists l. split; [lia|exact El].
Qed.
