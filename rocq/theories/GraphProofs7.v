(** Reordering of the branches. *)
From Coq Require Import List Arith NArith Bool Lia ZifyBool ZifyNat ZifyN Permutation Sorted.
From Verif Require Import UtilModel UtilSpec UtilProofs PidModel PermModel PermSpec PermProofs PermProofs2 PermProofs3 PermProofs4 PermProps MatModel SnfModel SnfProofs2 GraphModel GraphSpec GraphProofs GraphProofs2 GraphProofs3 GraphProofs5 GraphProofs6.
Import ListNotations.
Open Scope nat_scope.

Lemma foldM_app {A S} (f : S -> A -> option S) l1 l2 : forall s, foldM f (l1 ++ l2) s = do s' <- foldM f l1 s; foldM f l2 s'.
Proof. induction l1 as [|x l1 IH]; intros s; [reflexivity|]. cbn [app foldM]. destruct (f s x); cbn [obind]; [apply IH|reflexivity]. Qed.

(** Consecutive blocks from [s] to [n]. *)
Fixpoint chain (s n : nat) (bs : list (nat * nat * bool)) : Prop :=
  match bs with [] => s = n | (a, e, f) :: bs => a = s /\ s < e /\ chain e n bs end.
Lemma chain_le s n bs : chain s n bs -> s <= n.
Proof. revert s. induction bs as [|[[a e] f] bs IH]; cbn [chain]; intros s H; [lia|]. destruct H as (_ & H1 & H2). apply IH in H2. lia. Qed.
Lemma chain_in s n bs a e f : chain s n bs -> In (a, e, f) bs -> s <= a /\ a < e /\ e <= n.
Proof.
  revert s. induction bs as [|[[a' e'] f'] bs IH]; cbn [chain]; intros s H Hin; [destruct Hin|]. destruct H as (E & H1 & H2). pose proof (chain_le _ _ _ H2). destruct Hin as [[= -> -> ->]|Hin]; [lia|].
  destruct (IH e' H2 Hin). lia.
Qed.
Lemma chain_cover s n bs x : chain s n bs -> s <= x < n -> exists a e f, In (a, e, f) bs /\ a <= x < e.
Proof.
  revert s. induction bs as [|[[a' e'] f'] bs IH]; cbn [chain]; intros s H Hx; [lia|]. destruct H as (E & H1 & H2). destruct (Nat.lt_ge_cases x e') as [K|K]; [exists a', e', f'; split; [now left|lia]|].
  destruct (IH e' H2 ltac:(lia)) as (a & e & f & A & B). exists a, e, f. split; [now right|exact B].
Qed.

Lemma chain_unique n bs a e f a2 e2 f2 : forall s, chain s n bs -> In (a, e, f) bs -> In (a2, e2, f2) bs -> a2 <= a < e2 -> a = a2 /\ e = e2.
Proof.
  induction bs as [|[[u w] z] bs IH]; intros s HC Hin Hin2 Ha; [destruct Hin|]. cbn [chain] in HC. destruct HC as (E & Hw & HC).
  destruct Hin as [[= -> -> ->]|Hin], Hin2 as [[= -> -> ->]|Hin2]; [auto| | |now apply (IH w)].
  - pose proof (chain_in _ _ _ _ _ _ HC Hin2). lia.
  - pose proof (chain_in _ _ _ _ _ _ HC Hin). lia.
Qed.
Lemma moves_spec n : forall bs s, chain s n bs -> exists fin mv, foldM branch_move (filter (fun b => snd b) (rev bs)) (n, []) = Some (fin, mv) /\ Forall normal mv /\ s <= fin <= n /\
  (forall x, x < s \/ n <= x -> compose_all mv x = x) /\ (forall x, s <= x < n -> s <= compose_all mv x < n) /\
  (forall a e f x, In (a, e, f) bs -> a <= x < e -> compose_all mv x = compose_all mv a + (x - a) /\ (f = false -> compose_all mv x < fin) /\ (f = true -> fin <= compose_all mv x)) /\
  (forall a x, In (a, n, true) bs -> a <= x -> compose_all mv x = x).
Proof.
  induction bs as [|[[a0 e] f] bs IH]; intros s HC.
  - cbn [chain] in HC. subst s. exists n, []. split; [reflexivity|]. split; [constructor|]. split; [lia|]. split; [reflexivity|]. split; [intros; lia|]. split; intros ? ? ; intros; contradiction.
  - cbn [chain] in HC. destruct HC as (-> & Hse & HC). destruct (IH e HC) as (fin & mv & E & HN & HF & P1 & P2 & P3 & P4). pose proof (chain_le _ _ _ HC) as Hen.
    cbn [rev]. rewrite filter_app, foldM_app, E. cbn [obind filter snd]. destruct f; cbn [foldM obind].
    + unfold branch_move. cbn [fst snd]. assert (Q : exists q, (if fin =? e then Some identity else pswap (S fin) s e e fin) = Some q /\ normal q /\
        (forall x, x < s \/ fin <= x -> pmap q x = x) /\ (forall x, s <= x < e -> pmap q x = x + (fin - e)) /\ (forall x, e <= x < fin -> pmap q x = x - (e - s))).
      { destruct (Nat.eqb_spec fin e) as [Ef|Ef].
        - exists identity. split; [reflexivity|]. split; [apply normal_identity|]. split; [intros; apply pmap_identity|]. split; intros x Hx; rewrite pmap_identity; lia.
        - destruct (pswap_spec (S fin) s e e fin ltac:(lia) ltac:(lia) ltac:(lia) ltac:(lia)) as (q & Eq & Nq & Mq). exists q. split; [exact Eq|]. split; [exact Nq|].
          split; [|split]; intros x Hx; rewrite Mq; unfold exchange.
          + replace ((s <=? x) && (x <? e)) with false by lia. replace ((e <=? x) && (x <? e)) with false by lia. replace ((e <=? x) && (x <? fin)) with false by lia. reflexivity.
          + replace ((s <=? x) && (x <? e)) with true by lia. reflexivity.
          + replace ((s <=? x) && (x <? e)) with false by lia. replace ((e <=? x) && (x <? e)) with false by lia. replace ((e <=? x) && (x <? fin)) with true by lia. reflexivity. }
      destruct Q as (q & -> & Nq & Q1 & Q2 & Q3). cbn [obind]. exists (fin - (e - s)), (mv ++ [q]).
      assert (CM : forall x, compose_all (mv ++ [q]) x = pmap q (compose_all mv x)) by (intros x; now rewrite compose_all_app).
      split; [reflexivity|]. split; [apply Forall_app; auto|]. split; [lia|]. split; [|split; [|split]].
      * intros x Hx. rewrite CM, P1 by lia. apply Q1. lia.
      * intros x Hx. rewrite CM. destruct (Nat.lt_ge_cases x e) as [K|K].
        -- rewrite P1, Q2 by lia. lia.
        -- pose proof (P2 x ltac:(lia)). destruct (Nat.lt_ge_cases (compose_all mv x) fin); [rewrite Q3 by lia; lia|rewrite Q1 by lia; lia].
      * intros a e1 f1 x [[= <- <- <-]|Hin] Hx; rewrite !CM.
        -- rewrite !P1, !Q2 by lia. split; [lia|]. split; [discriminate|]. lia.
        -- pose proof (chain_in _ _ _ _ _ _ HC Hin) as Hb. destruct (P3 a e1 f1 x Hin Hx) as (R1 & R2 & R3). destruct (P3 a e1 f1 a Hin ltac:(lia)) as (_ & R2a & R3a).
           pose proof (P2 a ltac:(lia)) as Ba. pose proof (P2 x ltac:(lia)) as Bx. destruct f1.
           ++ specialize (R3 eq_refl). specialize (R3a eq_refl). rewrite !Q1 by lia. split; [lia|]. split; [discriminate|lia].
           ++ specialize (R2 eq_refl). specialize (R2a eq_refl). rewrite !Q3 by lia. split; [lia|]. split; [lia|discriminate].
      * intros a x [[= <- ->]|Hin] Hx.
        -- assert (bs = []) by (destruct bs as [|[[u w] z] bs]; [reflexivity|]; cbn [chain] in HC; destruct HC as (_ & K & K2); apply chain_le in K2; lia). subst bs. cbn in E. injection E as <- <-. cbn [app].
           rewrite CM. cbn [compose_all]. destruct (Nat.lt_ge_cases x n); [rewrite Q2 by lia; lia|rewrite Q1 by lia; reflexivity].
        -- rewrite CM, (P4 a x Hin Hx). pose proof (chain_in _ _ _ _ _ _ HC Hin) as Hb. destruct (P3 a n true a Hin ltac:(lia)) as (_ & _ & K). specialize (K eq_refl). rewrite (P4 a a Hin) in K by lia. apply Q1. lia.
    + exists fin, mv. split; [reflexivity|]. split; [exact HN|]. split; [lia|]. split; [intros x Hx; apply P1; lia|]. split; [|split].
      * intros x Hx. destruct (Nat.lt_ge_cases x e); [rewrite P1 by lia; lia|]. pose proof (P2 x ltac:(lia)). lia.
      * intros a e1 f1 x [[= <- <- <-]|Hin] Hx; [|now apply (P3 a e1 f1 x)]. rewrite !P1 by lia. split; [lia|]. split; [lia|discriminate].
      * intros a x [K|Hin] Hx; [discriminate K|]. now apply (P4 a x).
Qed.

(** ** Branches at a vertex *)
Definition child (g : rawg) (i j : nat) : Prop := i < j /\ edge g i j = true /\ forall k, i < k < j -> edge g k j = false.
Definition childb (g : rawg) (i j : nat) : bool := edge g i j && negb (existsb (fun k => edge g k j) (rng (i + 1) j)).
Lemma childb_iff g i j : i < j -> childb g i j = true <-> child g i j.
Proof.
  intros Hij. unfold childb, child. rewrite andb_true_iff, negb_true_iff. split.
  - intros [H1 H2]. split; [exact Hij|]. split; [exact H1|]. intros k Hk. destruct (edge g k j) eqn:E; [|reflexivity]. rewrite <- H2. symmetry. apply existsb_exists. exists k. split; [apply rng_in; lia|exact E].
  - intros (_ & H1 & H2). split; [exact H1|]. destruct (existsb _ _) eqn:E; [|reflexivity]. apply existsb_exists in E. destruct E as (k & Hk & Ek). apply rng_in in Hk. rewrite H2 in Ek by lia. discriminate Ek.
Qed.
Lemma tree_contains_spec g i j : GI g -> g_tree g = true -> i < j -> j < g_n g -> tree_contains g i j = Some (childb g i j).
Proof.
  intros HG HT H1 H2. unfold tree_contains. rewrite HT. cbn [negb]. rewrite contains_edge by assumption. cbn [obind]. unfold childb. destruct (edge g i j); [|reflexivity]. cbn [negb andb].
  rewrite (anyM_some _ (fun k => edge g k j)); [reflexivity|]. intros k Hk. apply rng_in in Hk. apply contains_edge; [assumption|lia|lia].
Qed.
Definition sepb (g : rawg) (i a b : nat) : bool := existsb (fun k => existsb (edge g k) (rng a b)) (seq 0 i).
Lemma sepb_iff g i a b : sepb g i a b = true <-> exists k l, k < i /\ a <= l < b /\ edge g k l = true.
Proof.
  unfold sepb. rewrite existsb_exists. split.
  - intros (k & Hk & H). apply existsb_exists in H. destruct H as (l & Hl & E). apply in_seq in Hk. apply rng_in in Hl. exists k, l. split; [lia|]. split; [lia|exact E].
  - intros (k & l & Hk & Hl & E). exists k. split; [apply in_seq; lia|]. apply existsb_exists. exists l. split; [apply rng_in; lia|exact E].
Qed.
Lemma separating_spec g i a b : GI g -> i < a -> b <= g_n g -> separating g i a b = Some (sepb g i a b).
Proof.
  intros HG Ha Hb. unfold separating. apply anyM_some. intros k Hk. apply in_seq in Hk. apply anyM_some. intros l Hl. apply rng_in in Hl. apply contains_edge; [assumption|lia|lia].
Qed.
Lemma branches_spec g i : GI g -> forall js start, i < start -> start < g_n g -> StronglySorted lt js -> (forall j, In j js -> start < j < g_n g) ->
  exists bs, branches_from g i start js = Some bs /\ chain start (g_n g) bs /\
   (forall a e f, In (a, e, f) bs -> f = sepb g i a e /\ (a = start \/ In a js) /\ (e = g_n g \/ In e js)) /\
   (forall a, a = start \/ In a js -> exists e f, In (a, e, f) bs).
Proof.
  intros HG. induction js as [|j js IH]; intros start Hi Hs HS Hj; cbn [branches_from].
  - rewrite separating_spec by (assumption || lia). cbn [obind]. eexists. split; [reflexivity|]. split; [cbn [chain]; lia|]. split; [intros a e f [[= <- <- <-]|[]]; auto|]. intros a [->|[]]. eexists _, _. left. reflexivity.
  - pose proof (Hj j ltac:(now left)) as Hjj. rewrite separating_spec by (assumption || lia). cbn [obind]. inversion HS as [|? ? HS' HF]; subst. rewrite Forall_forall in HF.
    destruct (IH j ltac:(lia) ltac:(lia) HS') as (bs & E & C & P & Q). { intros j' Hj'. pose proof (Hj j' ltac:(now right)). specialize (HF j' Hj'). lia. }
    rewrite E. cbn [obind]. eexists. split; [reflexivity|]. split; [cbn [chain]; split; [reflexivity|split; [lia|exact C]]|]. split; [intros a e f [[= <- <- <-]|Hin]|].
    + split; [reflexivity|]. split; [now left|]. right. now left.
    + destruct (P a e f Hin) as (P1 & P2 & P3). split; [exact P1|]. split; [right; destruct P2 as [->|P2]; [now left|now right]|]. destruct P3 as [P3|P3]; [now left|right; now right].
    + intros a [->|[<-|Ha]]; [eexists _, _; left; reflexivity|destruct (Q j ltac:(now left)) as (e & f & K)|destruct (Q a ltac:(now right)) as (e & f & K)]; exists e, f; now right.
Qed.
Lemma SS_filter (f : nat -> bool) l : StronglySorted lt l -> StronglySorted lt (filter f l).
Proof.
  induction 1 as [|a l H IH HF]; [constructor|]. cbn [filter]. destruct (f a); [|exact IH]. constructor; [exact IH|]. rewrite Forall_forall in *. intros x Hx. apply filter_In in Hx. apply HF. apply Hx.
Qed.
Lemma SS_seq a n : StronglySorted lt (seq a n).
Proof. revert a. induction n as [|n IH]; intros a; cbn [seq]; constructor; [apply IH|]. apply Forall_forall. intros x Hx. apply in_seq in Hx. lia. Qed.

(** No edges between different branches. *)
Lemma no_cross g i j x y : dfs_ordered g -> child g i j -> i < x -> x < j -> j <= y -> edge g x y = false.
Proof.
  intros HD (Hij & E & H) Hx Hxj Hy. destruct (edge g x y) eqn:Exy; [|reflexivity]. exfalso. destruct (Nat.eq_dec y j) as [->|]; [rewrite H in Exy by lia; discriminate Exy|].
  destruct (HD j x y Hxj ltac:(lia) Exy) as (l & Hl & El). rewrite H in El by lia. discriminate El.
Qed.

Section Step.
Variables (g : rawg) (i : nat) (bs : list (nat * nat * bool)) (pi : nat -> nat) (h : rawg).
Let n := g_n g.
Hypothesis HG : GI g.
Hypothesis HD : dfs_ordered g.
Hypothesis HSN : forall j, 0 < j -> j < n -> exists l, l < j /\ edge g l j = true.
Hypothesis HC : chain (i + 1) n bs.
Hypothesis HB : forall a e f, In (a, e, f) bs -> f = sepb g i a e /\ (a = i + 1 \/ child g i a) /\ (e = n \/ child g i e).
Hypothesis P1 : forall x, x < i + 1 \/ n <= x -> pi x = x.
Hypothesis P2 : forall x, i + 1 <= x < n -> i + 1 <= pi x < n.
Hypothesis P3 : forall a e f x, In (a, e, f) bs -> a <= x < e -> pi x = pi a + (x - a).
Hypothesis P4 : forall a x, In (a, n, true) bs -> a <= x -> pi x = x.
Hypothesis Pinj : forall x y, pi x = pi y -> x = y.
Hypothesis Ponto : forall y, exists x, pi x = y.
Hypothesis HE : forall x y, edge h (pi x) (pi y) = edge g x y.

Lemma same_block a e f x y : In (a, e, f) bs -> a <= x < e -> i < y -> edge g x y = true -> a <= y < e.
Proof.
  intros Hin Hx Hy E. destruct (HB a e f Hin) as (_ & Ha & He). pose proof (chain_in _ _ _ _ _ _ HC Hin) as Hb. pose proof (edge_lt g x y HG E) as (_ & Hyn & _). fold n in Hyn.
  split.
  - destruct (Nat.lt_ge_cases y a) as [K|K]; [|exact K]. exfalso. destruct Ha as [Ha|Ha]; [lia|]. rewrite edge_sym in E. rewrite (no_cross g i a y x HD Ha) in E by lia. discriminate E.
  - destruct (Nat.lt_ge_cases y e) as [K|K]; [exact K|]. exfalso. destruct He as [He|He]; [lia|]. rewrite (no_cross g i e x y HD He) in E by lia. discriminate E.
Qed.
Lemma pi_gt x : i < x -> i < pi x.
Proof. intros H. destruct (Nat.lt_ge_cases x n); [pose proof (P2 x ltac:(lia)); lia|rewrite P1 by lia; lia]. Qed.
Lemma pi_gt_inv x : i < pi x -> i < x.
Proof. intros H. destruct (Nat.lt_ge_cases i x); [assumption|rewrite P1 in H by lia; lia]. Qed.
(** A vertex after [i] without a neighbour in i..x-1 lies in the last branch, which then does not move. *)
Lemma last_fixed x : i < x -> x < n -> (forall l, i <= l < x -> edge g l x = false) -> exists a, In (a, n, true) bs /\ a <= x.
Proof.
  intros Hx Hxn Hno. destruct (chain_cover _ _ _ x HC ltac:(lia)) as (a & e & f & Hin & Hxe). pose proof (chain_in _ _ _ _ _ _ HC Hin) as Hae. destruct (HB a e f Hin) as (Hf & _ & He).
  assert (Hen : e = n).
  { destruct He as [He|He]; [exact He|]. exfalso. destruct He as (H1 & H2 & _). destruct (HD x i e ltac:(lia) ltac:(lia) H2) as (l & Hl & El). rewrite Hno in El by lia. discriminate El. }
  subst e. assert (Hft : f = true). { rewrite Hf. apply sepb_iff. destruct (HSN x ltac:(lia) Hxn) as (l & Hl & El). exists l, x. split; [|split; [lia|exact El]]. destruct (Nat.lt_ge_cases l i); [assumption|]. rewrite Hno in El by lia. discriminate El. }
  rewrite Hft in Hin. exists a. split; [exact Hin|lia].
Qed.
Lemma step_dfs : dfs_ordered h.
Proof.
  intros j b k Hb Hk E. destruct (Ponto b) as [b' <-]. destruct (Ponto j) as [j' <-]. destruct (Ponto k) as [k' <-]. rewrite HE in E. pose proof (edge_lt g b' k' HG E) as (Hbn & Hkn & _). fold n in Hbn, Hkn.
  destruct (Nat.lt_ge_cases i (pi j')) as [Hj|Hj].
  - apply pi_gt_inv in Hj as Hj'. destruct (Nat.lt_ge_cases i (pi b')) as [Hi|Hi].
    + apply pi_gt_inv in Hi as Hi'. destruct (chain_cover _ _ _ b' HC ltac:(lia)) as (a & e & f & Hin & Hbe).
      assert (Hke : a <= k' < e). { apply (same_block a e f b' k' Hin Hbe); [|exact E]. apply pi_gt_inv. lia. }
      pose proof (P3 a e f b' Hin Hbe) as Q1. pose proof (P3 a e f k' Hin Hke) as Q2. assert (Hje : j' = a + (pi j' - pi a)).
      { apply Pinj. rewrite (P3 a e f (a + (pi j' - pi a)) Hin) by lia. lia. }
      destruct (HD j' b' k' ltac:(lia) ltac:(lia) E) as (l & Hl & El). exists (pi l). rewrite HE. split; [|exact El]. pose proof (P3 a e f l Hin ltac:(lia)). pose proof (P3 a e f j' Hin ltac:(lia)). lia.
    + assert (Hbi : pi b' = b'). { destruct (Nat.lt_ge_cases b' (i + 1)); [apply P1; lia|]. pose proof (pi_gt b' ltac:(lia)). lia. } rewrite Hbi in *.
      assert (Hjn : j' < n). { destruct (Nat.lt_ge_cases j' n); [assumption|]. rewrite (P1 j') in Hk by lia. destruct (Nat.lt_ge_cases k' (i + 1)) as [K|K]; [rewrite (P1 k') in Hk by lia; lia|]. pose proof (P2 k' ltac:(lia)). lia. }
      destruct (chain_cover _ _ _ j' HC ltac:(lia)) as (a & e & f & Hin & Hje). pose proof (chain_in _ _ _ _ _ _ HC Hin) as Hae.
      destruct (existsb (fun l => edge g l j') (rng i j')) eqn:Ex.
      * apply existsb_exists in Ex. destruct Ex as (l & Hl & El). apply rng_in in Hl. exists (pi l). rewrite HE. split; [|exact El].
        destruct (Nat.eq_dec l i) as [->|]; [rewrite (P1 i) by lia; lia|]. pose proof (pi_gt l ltac:(lia)).
        assert (Hle : a <= l < e) by (apply (same_block a e f j' l Hin Hje); [lia|now rewrite edge_sym]). pose proof (P3 a e f l Hin Hle). pose proof (P3 a e f j' Hin Hje). lia.
      * assert (Hno : forall l, i <= l < j' -> edge g l j' = false). { intros l Hl. destruct (edge g l j') eqn:El; [|reflexivity]. rewrite <- Ex. symmetry. apply existsb_exists. exists l. split; [apply rng_in; lia|exact El]. }
        clear a e f Hin Hje Hae. destruct (last_fixed j' ltac:(lia) Hjn Hno) as (a & Hin & Haj).
        pose proof (P4 a j' Hin ltac:(lia)) as Fj. rewrite Fj in *.
        assert (Hkk : pi k' = k'). { symmetry. apply Pinj. symmetry. apply (P4 a (pi k') Hin). lia. } rewrite Hkk in *.
        destruct (HD j' b' k' Hb Hk E) as (l & Hl & El). exists l. split; [exact Hl|]. destruct (Nat.lt_ge_cases l i) as [K|K]; [|rewrite Hno in El by lia; discriminate El].
        rewrite <- (P1 l) by lia. rewrite <- Fj. rewrite HE. exact El.
  - assert (Hji : pi j' = j' /\ j' <= i). { destruct (Nat.lt_ge_cases j' (i + 1)); [split; [apply P1; lia|lia]|]. pose proof (pi_gt j' ltac:(lia)). lia. } destruct Hji as [Hji Hji']. rewrite Hji in *.
    assert (Hbi : pi b' = b'). { destruct (Nat.lt_ge_cases b' (i + 1)); [apply P1; lia|]. pose proof (pi_gt b' ltac:(lia)). lia. } rewrite Hbi in *.
    assert (Hkj : j' < k'). { destruct (Nat.lt_ge_cases k' (i + 1)); [rewrite (P1 k') in Hk by lia; lia|lia]. }
    destruct (HD j' b' k' Hb Hkj E) as (l & Hl & El). exists l. split; [exact Hl|]. rewrite <- (P1 l) by lia. rewrite <- Hji, HE. exact El.
Qed.

(** Order inside a branch is kept. *)
Lemma pi_block a e f x y : In (a, e, f) bs -> a <= x < e -> a <= y < e -> x < y <-> pi x < pi y.
Proof. intros Hin Hx Hy. rewrite (P3 a e f x Hin Hx), (P3 a e f y Hin Hy). lia. Qed.
(** A common neighbour after [i] keeps its side. *)
Lemma pi_edge x y : i < x -> i < y -> edge g x y = true -> x < y <-> pi x < pi y.
Proof.
  intros Hx Hy E. pose proof (edge_lt g x y HG E) as (Hxn & _ & _). fold n in Hxn. destruct (chain_cover _ _ _ x HC ltac:(lia)) as (a & e & f & Hin & Hxe). apply (pi_block a e f x y Hin Hxe). now apply (same_block a e f x y).
Qed.
(** *** Children of earlier vertices are unchanged *)
Section Earlier.
Variable r : nat.
Hypothesis Hr : r < i.
Definition edge_h_inv x y (E : edge h x y = true) : exists x' y', pi x' = x /\ pi y' = y /\ edge g x' y' = true.
Proof. destruct (Ponto x) as [x' <-]. destruct (Ponto y) as [y' <-]. rewrite HE in E. exists x', y'. auto. Qed.
Lemma fix_le x : x <= i -> pi x = x.
Proof. intros H. apply P1. lia. Qed.
Lemma child_gap c : child g r c -> i < c -> exists a, In (a, n, true) bs /\ a <= c.
Proof.
  intros (H1 & H2 & H3) Hc. pose proof (edge_lt g r c HG H2) as (_ & Hcn & _). apply last_fixed; [exact Hc|exact Hcn|]. intros l Hl. apply H3. lia.
Qed.
Lemma child_to c : child g r c -> child h r c /\ pi c = c.
Proof.
  intros HCh. assert (Fc : pi c = c). { destruct (Nat.le_gt_cases c i) as [K|K]; [now apply fix_le|]. destruct (child_gap c HCh K) as (a & Hin & Ha). now apply (P4 a). }
  split; [|exact Fc]. pose proof HCh as (H1 & H2 & H3). split; [exact H1|]. split; [rewrite <- Fc, <- (fix_le r) by lia; now rewrite HE|].
  intros k Hk. destruct (edge h k c) eqn:E; [|reflexivity]. exfalso. destruct (Ponto k) as [k' <-]. rewrite <- Fc, HE in E. destruct (Nat.le_gt_cases k' i) as [K|K].
  - rewrite (fix_le k' K) in Hk. rewrite H3 in E by lia. discriminate E.
  - pose proof (pi_gt k' K). assert (K2 : k' < c) by (apply (pi_edge k' c); [exact K|lia|exact E|lia]). rewrite H3 in E by lia. discriminate E.
Qed.
Lemma child_from c : child h r c -> child g r c.
Proof.
  intros (H1 & H2 & H3). destruct (Ponto c) as [c' Ec]. rewrite <- Ec, <- (fix_le r), HE in H2 by lia. pose proof (edge_lt g r c' HG H2) as (_ & Hcn & _). fold n in Hcn.
  destruct (Nat.le_gt_cases c' i) as [K|K].
  - rewrite (fix_le c' K) in Ec. subst c'. split; [exact H1|]. split; [exact H2|]. intros k Hk. rewrite <- (H3 k Hk), <- HE, !fix_le by lia. reflexivity.
  - pose proof (pi_gt c' K). assert (Hno : forall l, r < l < c' -> edge g l c' = false).
    { intros l Hl. destruct (edge g l c') eqn:E; [|reflexivity]. exfalso. assert (Q : edge h (pi l) c = false); [|rewrite <- Ec, HE in Q; congruence]. apply H3. rewrite <- Ec.
      destruct (Nat.le_gt_cases l i) as [K2|K2]; [rewrite (fix_le l K2); lia|]. pose proof (pi_gt l K2). split; [lia|]. apply (pi_edge l c' K2 K E). lia. }
    destruct (last_fixed c' K Hcn ltac:(intros l Hl; apply Hno; lia)) as (a & Hin & Ha). rewrite (P4 a c' Hin Ha) in Ec. subst c'. split; [exact H1|]. split; [exact H2|exact Hno].
Qed.
Definition branch_of (g : rawg) (i c l : nat) : Prop := c <= l /\ forall c', child g i c' -> c < c' -> l < c'.
Lemma branch_to c l : child g r c -> branch_of g r c l -> branch_of h r c (pi l).
Proof.
  intros HCh (H1 & H2). split.
  - destruct (Nat.le_gt_cases l i) as [K|K]; [now rewrite fix_le|]. destruct (Nat.le_gt_cases c i) as [K2|K2]; [pose proof (pi_gt l K); lia|]. destruct (child_gap c HCh K2) as (a & Hin & Ha). rewrite (P4 a l Hin) by lia. exact H1.
  - intros c' Hc' Hlt. apply child_from in Hc'. specialize (H2 c' Hc' Hlt). destruct (Nat.le_gt_cases c' i) as [K|K]; [now rewrite fix_le by lia|]. destruct (child_gap c' Hc' K) as (a & Hin & Ha).
    destruct (Nat.lt_ge_cases (pi l) c') as [|K2]; [assumption|]. exfalso. assert (pi l = l) by (apply Pinj; apply (P4 a (pi l) Hin); lia). lia.
Qed.
Lemma branch_back c l : child g r c -> branch_of h r c (pi l) -> branch_of g r c l.
Proof.
  intros HCh (H1 & H2). split.
  - destruct (Nat.le_gt_cases l i) as [K|K]; [now rewrite fix_le in H1|]. destruct (Nat.le_gt_cases c i) as [K2|K2]; [lia|]. destruct (child_gap c HCh K2) as (a & Hin & Ha).
    assert (pi l = l) by (apply Pinj; apply (P4 a (pi l) Hin); lia). lia.
  - intros c' Hc' Hlt. destruct (child_to c' Hc') as [Hc'' Fc]. specialize (H2 c' Hc'' Hlt). destruct (Nat.le_gt_cases c' i) as [K|K].
    + destruct (Nat.le_gt_cases l i) as [K2|K2]; [now rewrite fix_le in H2|]. pose proof (pi_gt l K2). lia.
    + destruct (child_gap c' Hc' K) as (a & Hin & Ha). destruct (Nat.lt_ge_cases l c') as [|K2]; [assumption|]. rewrite (P4 a l Hin) in H2 by lia. exact H2.
Qed.
Definition returns (g : rawg) (i c : nat) : Prop := exists k l, k < i /\ branch_of g i c l /\ edge g k l = true.
Definition sorted_at (g : rawg) (i : nat) : Prop := forall c1 c2, child g i c1 -> child g i c2 -> c1 < c2 -> returns g i c1 -> returns g i c2.
Lemma sorted_kept : sorted_at g r -> sorted_at h r.
Proof.
  intros HS c1 c2 H1 H2 Hlt (k & l & Hk & Hb & E). apply child_from in H1, H2. destruct (Ponto l) as [l' El]. subst l. rewrite <- (fix_le k), HE in E by lia.
  destruct (HS c1 c2 H1 H2 Hlt) as (k2 & l2 & Hk2 & Hb2 & E2); [exists k, l'; split; [exact Hk|]; split; [now apply branch_back|exact E]|].
  exists k2, (pi l2). split; [exact Hk2|]. split; [now apply branch_to|]. rewrite <- (fix_le k2) by lia. now rewrite HE.
Qed.
End Earlier.

(** *** The branches of [i] itself are sorted *)
Variable fin : nat.
Hypothesis P5 : forall a e f x, In (a, e, f) bs -> a <= x < e -> (f = false -> pi x < fin) /\ (f = true -> fin <= pi x).
Hypothesis HBs : forall a, child g i a -> exists e f, In (a, e, f) bs.
Lemma own_child_from c : child h i c -> exists c', c = pi c' /\ child g i c'.
Proof.
  intros (H1 & H2 & H3). destruct (Ponto c) as [c' Ec]. exists c'. split; [auto|]. assert (Fi : pi i = i) by (apply P1; lia). pose proof H2 as H2'. rewrite <- Ec, <- Fi, HE in H2'.
  assert (Hi : i < c') by (apply pi_gt_inv; lia). split; [exact Hi|]. split; [exact H2'|]. intros k Hk. destruct (edge g k c') eqn:E; [|reflexivity]. exfalso.
  assert (Q : edge h (pi k) c = false); [|rewrite <- Ec, HE in Q; congruence]. apply H3. rewrite <- Ec. split; [apply pi_gt; lia|]. apply (pi_edge k c'); [lia|lia|exact E|lia].
Qed.
Lemma own_child_to c : child g i c -> child h i (pi c).
Proof.
  intros (H1 & H2 & H3). assert (Fi : pi i = i) by (apply P1; lia). split; [now apply pi_gt|]. split; [rewrite <- Fi; now rewrite HE|]. intros k Hk. destruct (edge h k (pi c)) eqn:E; [|reflexivity]. exfalso.
  destruct (Ponto k) as [k' <-]. rewrite HE in E. assert (Hk' : i < k') by (apply pi_gt_inv; lia). assert (k' < c) by (apply (pi_edge k' c); [exact Hk'|exact H1|exact E|lia]). rewrite H3 in E by lia. discriminate E.
Qed.
Lemma starts_children a e f c : child g i c -> In (a, e, f) bs -> child g i a.
Proof.
  intros (H1 & H2 & H3) Hin. destruct (HB a e f Hin) as (_ & [Ha|Ha] & _); [|exact Ha]. subst a. split; [lia|]. split; [|intros; lia].
  destruct (Nat.eq_dec c (i + 1)) as [<-|]; [exact H2|]. destruct (HD (i + 1) i c ltac:(lia) ltac:(lia) H2) as (l & Hl & El). assert (Hli : l = i) by lia. rewrite Hli in El. exact El.
Qed.
Lemma own_branch a e f l : child g i a -> In (a, e, f) bs -> l < n -> branch_of h i (pi a) l <-> pi a <= l < pi a + (e - a).
Proof.
  intros HCh Hin Hln. pose proof HCh as (Hia & _). pose proof (chain_in _ _ _ _ _ _ HC Hin) as Hae. split.
  - intros (H1 & H2). split; [exact H1|]. destruct (Nat.lt_ge_cases l (pi a + (e - a))) as [|K]; [assumption|]. exfalso. destruct (Ponto l) as [l' El].
    assert (Hl' : i < l'). { apply pi_gt_inv. pose proof (pi_gt a Hia). lia. }
    assert (Hln' : l' < n). { destruct (Nat.lt_ge_cases l' n); [assumption|]. rewrite P1 in El by lia. lia. }
    destruct (chain_cover _ _ _ l' HC ltac:(lia)) as (a2 & e2 & f2 & Hin2 & He2). pose proof (P3 a2 e2 f2 l' Hin2 He2) as Q. pose proof (chain_in _ _ _ _ _ _ HC Hin2) as Hae2.
    assert (Hc2 : child h i (pi a2)) by (apply own_child_to; eapply starts_children; eauto).
    destruct (Nat.lt_ge_cases (pi a) (pi a2)) as [K2|K2]; [specialize (H2 _ Hc2 K2); lia|].
    assert (W : pi (a2 + (pi a - pi a2)) = pi a) by (rewrite (P3 a2 e2 f2 (a2 + (pi a - pi a2)) Hin2) by lia; lia). apply Pinj in W.
    assert (W3 : pi (a + (e - a - 1)) = pi a + (e - a - 1)) by (rewrite (P3 a e f (a + (e - a - 1)) Hin) by lia; lia).
    assert (W4 : pi (a2 + (pi a + (e - a - 1) - pi a2)) = pi a + (e - a - 1)) by (rewrite (P3 a2 e2 f2 (a2 + (pi a + (e - a - 1) - pi a2)) Hin2) by lia; lia).
    assert (Ha : a2 <= a < e2) by lia. destruct (HB a2 e2 f2 Hin2) as (_ & _ & He). destruct (HB a e f Hin) as (_ & _ & He1).
    destruct (chain_unique _ _ _ _ _ _ _ _ _ HC Hin Hin2 Ha) as [<- <-].
    lia.
  - intros Hl. split; [lia|]. intros c' Hc' Hlt. destruct (own_child_from c' Hc') as (a2 & -> & Hc2). destruct (Nat.lt_ge_cases l (pi a2)) as [|K]; [assumption|]. exfalso.
    assert (W : pi (a + (pi a2 - pi a)) = pi a2) by (rewrite (P3 a e f (a + (pi a2 - pi a)) Hin) by lia; lia). apply Pinj in W. destruct (HBs a2 Hc2) as (e2 & f2 & Hin2). pose proof (chain_in _ _ _ _ _ _ HC Hin2) as Hae2.
    destruct (chain_unique _ _ _ _ _ _ _ _ _ HC Hin2 Hin ltac:(lia)) as [Hx _]. lia.
Qed.
Hypothesis HGh : GI h.
Hypothesis Hnh : g_n h = n.
Lemma sorted_own : sorted_at h i.
Proof.
  intros c1 c2 H1 H2 Hlt (k & l & Hk & Hb & E). destruct (own_child_from c1 H1) as (a1 & -> & C1). destruct (own_child_from c2 H2) as (a2 & -> & C2). destruct (HBs a1 C1) as (e1 & f1 & I1). destruct (HBs a2 C2) as (e2 & f2 & I2).
  pose proof (edge_lt h k l HGh E) as (_ & Hln & _). rewrite Hnh in Hln. apply (own_branch a1 e1 f1 l C1 I1 Hln) in Hb. pose proof (chain_in _ _ _ _ _ _ HC I1) as K1. pose proof (chain_in _ _ _ _ _ _ HC I2) as K2.
  assert (Hf1 : f1 = true). { destruct (HB _ _ _ I1) as (Hf1 & _). rewrite Hf1. apply sepb_iff. exists k, (a1 + (l - pi a1)). split; [exact Hk|]. split; [lia|]. rewrite <- HE, (P1 k) by lia. rewrite (P3 a1 e1 f1 (a1 + (l - pi a1)) I1) by lia. replace (pi a1 + (a1 + (l - pi a1) - a1)) with l by lia. exact E. }
  destruct (P5 a1 e1 f1 a1 I1 ltac:(lia)) as [_ Q1]. specialize (Q1 Hf1). destruct (P5 a2 e2 f2 a2 I2 ltac:(lia)) as [Q2 _]. destruct f2; [|specialize (Q2 eq_refl); lia].
  destruct (HB _ _ _ I2) as (Hf2 & _). symmetry in Hf2. apply sepb_iff in Hf2. destruct Hf2 as (k2 & l2 & Hk2 & Hl2 & E2). exists k2, (pi l2). split; [exact Hk2|]. split; [|rewrite <- (P1 k2) by lia; now rewrite HE].
  pose proof (P2 l2 ltac:(lia)) as B2. apply (own_branch a2 e2 true (pi l2) C2 I2); [lia|]. rewrite (P3 a2 e2 true l2 I2 Hl2). lia.
Qed.
End Step.

Lemma reorder_at_spec g0 g p i : relab g0 p g -> g_tree g = true -> i + 1 < g_n g ->
  exists g' p', reorder_at (g, p) i = Some (g', p') /\ (relab g0 p' g' /\ forall x, pmap p x <= i -> pmap p' x = pmap p x) /\ g_tree g' = true /\
    (connected (g_n g) (edge g) -> dfs_ordered g -> (forall r, r < i -> sorted_at g r) -> dfs_ordered g' /\ forall r, r <= i -> sorted_at g' r).
Proof.
  intros R HT Hi. pose proof (L_GI _ _ _ R) as HG. unfold reorder_at. cbn [fst snd]. rewrite degree_spec by assumption. replace (i <? g_n g) with true by lia. cbn [obind].
  destruct (Nat.leb_spec (length (filter (edge g i) (seq 0 (g_n g)))) 2) as [Hd|Hd].
  { exists g, p. split; [reflexivity|]. split; [split; [exact R|auto]|]. split; [exact HT|]. intros HConn HD HS. split; [exact HD|]. intros r Hr. destruct (Nat.eq_dec r i) as [->|]; [|apply HS; lia].
    intros c1 c2 (A1 & A2 & _) (B1 & B2 & _) Hlt (k & l & Hk & _). exfalso. destruct (smaller_neighbour g i HG HConn HD ltac:(lia) ltac:(lia)) as (m & Hm & Em).
    assert (K : incl [m; c1; c2] (filter (edge g i) (seq 0 (g_n g)))).
    { intros x [<-|[<-|[<-|[]]]]; apply filter_In; (split; [apply in_seq; pose proof (edge_lt g i c1 HG A2); pose proof (edge_lt g i c2 HG B2); lia|]); auto. now rewrite edge_sym. }
    apply NoDup_incl_length in K; [cbn [length] in K; lia|]. constructor; [cbn; lia|]. constructor; [cbn; lia|]. constructor; [cbn; lia|constructor]. }
  rewrite (filterM_some _ (edge g i)) by (intros j Hj; apply rng_in in Hj; apply contains_edge; [assumption|lia|lia]). cbn [obind].
  rewrite (filterM_some _ (childb g i)) by (intros j Hj; apply filter_In in Hj; destruct Hj as [Hj _]; apply rng_in in Hj; apply tree_contains_spec; [assumption|assumption|lia|lia]). cbn [obind].
  set (js := filter (childb g i) (filter (edge g i) (rng (i + 2) (g_n g)))).
  assert (Hjs : forall j, In j js -> child g i j /\ i + 1 < j < g_n g).
  { intros j Hj. unfold js in Hj. apply filter_In in Hj. destruct Hj as [Hj Hc]. apply filter_In in Hj. destruct Hj as [Hj _]. apply rng_in in Hj. split; [apply childb_iff; [lia|exact Hc]|lia]. }
  destruct (branches_spec g i HG js (i + 1) ltac:(lia) Hi) as (bs & Eb & HC & HB & HBs).
  { unfold js. apply SS_filter, SS_filter. apply SS_seq. }
  { intros j Hj. apply Hjs. exact Hj. }
  rewrite Eb. cbn [obind]. destruct (moves_spec (g_n g) bs (i + 1) HC) as (fin & mv & Em & HN & HF & P1 & P2 & P3 & P4). rewrite Em. cbn [obind snd].
  destruct (pproduct_spec mv HN) as (act & Ea & Na & Ma). rewrite Ea. cbn [obind].
  assert (HS : forall x, pmap act x <> x -> x < g_n g). { intros x Hx. destruct (Nat.lt_ge_cases x (g_n g)); [assumption|]. rewrite Ma, P1 in Hx by lia. congruence. }
  destruct (action_relab g act HG Na HS) as (h & Eh & Rh & Th). rewrite Eh. cbn [obind]. destruct (relab_comp g0 p g act h R Rh) as (r & Er & Rr & Mr). rewrite Er. cbn [obind].
  exists h, r. split; [reflexivity|]. split; [split; [exact Rr|intros x Hx; rewrite Mr, Ma; apply P1; lia]|]. split; [congruence|]. intros HConn HD HS2. destruct (pmap_bijective act (normal_disj act Na)) as [Inj Onto].
  assert (A0 : forall j, 0 < j -> j < g_n g -> exists l, l < j /\ edge g l j = true) by (intros j H0 Hj; now apply smaller_neighbour).
  assert (A1 : forall a e f, In (a, e, f) bs -> f = sepb g i a e /\ (a = i + 1 \/ child g i a) /\ (e = g_n g \/ child g i e)).
  { intros a e f Hin. destruct (HB a e f Hin) as (A & B & C). split; [exact A|]. split; [destruct B as [B|B]; [now left|right; now apply Hjs]|destruct C as [C|C]; [now left|right; now apply Hjs]]. }
  assert (A2 : forall a e f x, In (a, e, f) bs -> a <= x < e -> compose_all mv x = compose_all mv a + (x - a)) by (intros a e f x Hin Hx; now apply (P3 a e f x)).
  assert (A3 : forall x y, compose_all mv x = compose_all mv y -> x = y) by (intros x y; rewrite <- !Ma; apply Inj).
  assert (A4 : forall y, exists x, compose_all mv x = y) by (intros y; destruct (Onto y) as [x <-]; exists x; now rewrite Ma).
  assert (A5 : forall x y, edge h (compose_all mv x) (compose_all mv y) = edge g x y) by (intros x y; rewrite <- !Ma; apply (L_edge _ _ _ Rh)).
  split; [now apply (step_dfs g i bs (compose_all mv) h)|].
  intros r' Hr'. destruct (Nat.eq_dec r' i) as [->|].
  - apply (sorted_own g i bs (compose_all mv) h HG HD A0 HC A1 P1 P2 A2 P4 A3 A4 A5 fin); auto.
    + intros a e f x Hin Hx. now apply (P3 a e f x).
    + intros a Ha. apply HBs. destruct (Nat.eq_dec a (i + 1)) as [->|]; [now left|right]. pose proof Ha as (H1 & H2 & _). pose proof (edge_lt g i a HG H2) as (_ & Han & _).
      unfold js. apply filter_In. split; [apply filter_In; split; [apply rng_in; lia|exact H2]|now apply childb_iff].
    + apply Rh.
    + apply (L_n _ _ _ Rh).
  - apply (sorted_kept g i bs (compose_all mv) h HG HD A0 HC A1 P1 P2 A2 P4 A3 A4 A5 r'); [lia|]. apply HS2. lia.
Qed.
