(** The maximal tree of a subdivided graph: distances between branching vertices, leaves, and the edges outside the tree. *)
From Coq Require Import String List Arith ZArith Bool Lia Sorted Permutation.
From Verif Require Import PidModel SnfModel GraphModel GraphSpec GraphProofs GraphProofs3 GraphProofs5 GraphProofs6 GraphProofs7 GraphProofs8 GraphProps LabGraphModel LabGraphSpec SubdivSpec SubdivProofs SubdivProofs2 SubdivProps
  CubeModel CubeSpec MorseModel MorseSpec MorseProofs MorseProofs4 CubeProps MorseCplxSpec.
Import ListNotations.
Open Scope nat_scope.
Open Scope list_scope.

Section G.
Variable g : rawg.
Hypothesis HA : AR g.
Lemma child_next v y : v < y -> edge g v y = true -> child g v (v + 1).
Proof.
  intros L E. destruct (Nat.eq_dec y (v + 1)) as [->|Ny]; [split; [lia|split; [exact E|intros; lia]]|].
  destruct (AR_dfs g HA (v + 1) v y ltac:(lia) ltac:(lia) E) as (l & Hl & El). assert (l = v) by lia. subst l. split; [lia|split; [exact El|intros; lia]].
Qed.
Lemma descends_lt z l w : descends g z l w -> z <= w /\ (forall t, In t l -> z < t <= w) /\ (l <> [] -> z < w).
Proof.
  induction 1 as [|l p w H (A & B & C) T]; [split; [lia|split; [intros t []|congruence]]|]. apply (te_child g HA) in T. destruct (child_lt g HA p w T) as (L & _).
  split; [lia|]. split; [|lia]. intros t [<-|Ht]; [lia|]. specialize (B t Ht). lia.
Qed.
Lemma descends_NoDup z l w : descends g z l w -> NoDup l.
Proof.
  induction 1 as [|l p w H IH T]; [constructor|]. constructor; [|exact IH]. intros K. apply (te_child g HA) in T. destruct (child_lt g HA p w T) as (L & _). destruct (descends_lt _ _ _ H) as (_ & B & _). specialize (B w K). lia.
Qed.
Lemma descends_parent z l w : descends g z l w -> forall t, In t l -> exists p, child g p t /\ (p = z \/ In p l).
Proof.
  induction 1 as [|l p w H IH T]; intros t; [intros []|]. apply (te_child g HA) in T. intros [<-|Ht].
  - exists p. split; [exact T|]. destruct H; [now left|right; right; now left].
  - destruct (IH t Ht) as (q & Cq & [->|Hq]); [exists z; auto|exists q; split; [exact Cq|right; now right]].
Qed.
Lemma descends_next z l w : descends g z l w -> forall t, t = z \/ In t l -> t <> w -> exists s, child g t s /\ In s l.
Proof.
  induction 1 as [|l p w H IH T]; intros t Ht N; [destruct Ht as [->|[]]; congruence|]. apply (te_child g HA) in T.
  assert (Ht' : t = z \/ In t l) by (destruct Ht as [->|[K|K]]; [now left|congruence|now right]). destruct (Nat.eq_dec t p) as [->|Np]; [exists w; split; [exact T|now left]|].
  destruct (IH t Ht' Np) as (s & Cs & Hs). exists s. split; [exact Cs|now right].
Qed.
End G.

Section Sub.
Variables (es : list (string * string)) (m : nat) (L : list svertex) (g : rawg).
Hypothesis Hm : 2 <= m.
Hypothesis HA : AR g.
Hypothesis D : describes es m L (edge g).
Hypothesis HL : List.length L = g_n g.
Hypothesis HB : base_like (g_n g) (edge g) 0.

Lemma special_lt z : special g z -> z < g_n g.
Proof.
  intros [(i & j & _ & T & _)|(y & Ly & E & _)]; [apply (te_child g HA) in T; destruct (child_lt g HA z i T); lia|]. apply (edge_lt g z y (AR_GI g HA) E).
Qed.
Lemma special_label z : special g z -> exists s, nth_error L z = Some (Essential s).
Proof.
  intros SP. pose proof (special_lt z SP) as Lz. destruct (Nat.eq_dec z 0) as [->|Nz]; [exact (zero_label es m L g Hm HA D HL HB)|]. destruct (has_parent g HA z) as (w & C); [lia|exact Lz|]. destruct (child_lt g HA w z C) as (Lw & _ & Ew). rewrite edge_sym in Ew.
  destruct SP as [(i & j & Nij & Ti & Tj)|(y & Ly & E & NT)].
  - apply (te_child g HA) in Ti, Tj. destruct (child_lt g HA z i Ti) as (Li & _ & Ei). destruct (child_lt g HA z j Tj) as (Lj & _ & Ej). apply (three_label es m L g Hm HA D HL z w i j); auto; lia.
  - pose proof (child_next g HA z y Ly E) as C1. destruct (child_lt g HA _ _ C1) as (_ & _ & E1). assert (y <> z + 1) by (intros ->; apply NT; now apply (te_child g HA)). apply (three_label es m L g Hm HA D HL z w (z + 1) y); auto; lia.
Qed.
Lemma descends_walk z l w u v : descends g z l w -> nth_error L z = Some u -> nth_error L w = Some v -> walk es m (List.length l) u v.
Proof.
  intros H. revert v. induction H as [|l p w H IH T]; intros v Hu Hv; [rewrite Hu in Hv; injection Hv as <-; constructor|]. apply (te_child g HA) in T. destruct (child_lt g HA p w T) as (Lp & Lw & E).
  destruct (L_nth es m L g Hm D HL p ltac:(lia)) as (x & Hx & _). cbn [List.length]. apply (w_cons _ _ _ _ x); [now apply IH|]. now apply (L_adj es m L g D p w).
Qed.
Lemma descends_in z l w : descends g z l w -> z < g_n g -> w < g_n g.
Proof. intros [|l' p w' H T]; [auto|]. intros _. apply (te_child g HA) in T. apply (child_lt g HA p w' T). Qed.
Lemma spread_branch z l w : special g z -> special g w -> descends g z l w -> l <> [] -> m <= List.length l + 1.
Proof.
  intros S1 S2 HD Nl. destruct (special_label z S1) as (s & Hs). destruct (special_label w S2) as (t & Ht). pose proof (descends_walk _ _ _ _ _ HD Hs Ht) as W. destruct (descends_lt g HA _ _ _ HD) as (_ & _ & K). specialize (K Nl).
  assert (s <> t) as N. { intros ->. pose proof (L_inj es m L g D _ _ _ Hs Ht). lia. } pose proof (C67_paths es m s t _ Hm N W). lia.
Qed.
Lemma nontree_leaf x y : x < y -> edge g x y = true -> ~ tree_edge g x y -> leaf g y.
Proof.
  intros Lxy E NT. pose proof (edge_lt g x y (AR_GI g HA) E) as (_ & Ly & _). split; [exact Ly|]. intros z T. apply (te_child g HA) in T. destruct (child_lt g HA y z T) as (Lz & _ & Ez).
  destruct (has_parent g HA y) as (p & C); [lia|exact Ly|]. destruct (child_lt g HA p y C) as (Lp & _ & Ep). assert (p <> x) by (intros ->; apply NT; now apply (te_child g HA)).
  destruct (three_label es m L g Hm HA D HL y x p z) as (t & Ht); auto; try lia; [rewrite edge_sym; exact E|rewrite edge_sym; exact Ep|].
  destruct (special_label x) as (s & Hs); [right; exists y; auto|]. apply (L_adj es m L g D x y _ _ Hs Ht) in E. destruct E as [E|E]; inversion E.
Qed.
Lemma spread_leaf z l w : special g z -> leaf g w -> descends g z l w -> l <> [] -> m <= List.length l + 2.
Proof.
  intros SZ (Lw & LF) HD Nl. destruct (special_label z SZ) as (s & Hs). destruct (descends_lt g HA _ _ _ HD) as (_ & HB2 & K). specialize (K Nl). unfold g_n_vertices in Lw. destruct (L_nth es m L g Hm D HL w Lw) as (u & Hu & V). destruct u as [t|a b k i q].
  - pose proof (descends_walk _ _ _ _ _ HD Hs Hu) as W. assert (s <> t) as N. { intros ->. pose proof (L_inj es m L g D _ _ _ Hs Hu). lia. } pose proof (C67_paths es m s t _ Hm N W). lia.
  - inversion V as [|? ? ? ? HN Hk Hi]; subst. destruct (inner_two es m a b k i Hm HN Hk Hi) as (N & A1 & A2). destruct (inner_vertices es m a b k i Hm HN Hk Hi) as (V1 & V2).
    apply D in V1, V2. apply In_nth_error in V1 as (x & Hx), V2 as (y & Hy). apply (L_adj es m L g D w x _ _ Hu Hx) in A1. apply (L_adj es m L g D w y _ _ Hu Hy) in A2.
    assert (Nxy : x <> y) by (intros ->; congruence). clear N Hx Hy HN Hk Hi. destruct (has_parent g HA w) as (p & C); [lia|exact Lw|].
    assert (exists e, e <> p /\ edge g w e = true) as (e & Ne & Ee). { destruct (Nat.eq_dec x p) as [->|]; [exists y; auto|exists x; auto]. }
    assert (Le : e < w). { destruct (Nat.lt_trichotomy e w) as [|[->|G]]; [assumption|now rewrite edge_irrefl in Ee|]. exfalso. apply (LF (w + 1)). apply (te_child g HA). now apply (child_next g HA w e). }
    rewrite edge_sym in Ee. assert (NT : ~ tree_edge g e w) by (intros T; apply (te_child g HA) in T; apply Ne; now apply (child_unique g _ _ w T)).
    assert (SE : special g e) by (right; exists w; auto). destruct (special_label e SE) as (t & Ht). destruct (Nat.eq_dec e z) as [->|Nez].
    + (* a ring *)
      assert (m + 1 <= List.length (map (fun i => nth i L (Essential EmptyString)) (z :: l))); [|rewrite map_length in *; cbn [List.length] in *; lia].
      apply (ring_long es m _ Hm) with (u := Essential s); [|cbn [map]; left; now apply nth_error_nth].
      assert (Ed : forall i j, edge g i j = true -> adjacent es m (nth i L (Essential EmptyString)) (nth j L (Essential EmptyString))).
      { intros i0 j0 E. destruct (edge_nth es m L g Hm HA D HL i0 j0 E) as (u1 & v1 & H1 & H2 & A). now rewrite (nth_error_nth _ _ _ H1), (nth_error_nth _ _ _ H2). }
      assert (Ij : forall i j, i < g_n g -> j < g_n g -> nth i L (Essential EmptyString) = nth j L (Essential EmptyString) -> i = j).
      { intros i0 j0 Li Lj E. destruct (L_nth es m L g Hm D HL i0 Li) as (u1 & H1 & _). destruct (L_nth es m L g Hm D HL j0 Lj) as (u2 & H2 & _). rewrite (nth_error_nth _ _ _ H1), (nth_error_nth _ _ _ H2) in E. subst u2. now apply (L_inj es m L g D i0 j0 u1). }
      assert (Hw : In w l) by (destruct HD; [congruence|now left]).
      intros u Hu'. apply in_map_iff in Hu' as (t0 & <- & Ht0).
      assert (exists i j, i <> j /\ In i (z :: l) /\ In j (z :: l) /\ edge g t0 i = true /\ edge g t0 j = true) as (i0 & j0 & Nij & Hi0 & Hj0 & Ei & Ej).
      { destruct Ht0 as [<-|Ht0].
        - destruct (descends_next g HA _ _ _ HD z) as (c & Cc & Hc); [now left|lia|]. exists c, w. split; [intros ->; apply NT; now apply (te_child g HA)|]. split; [now right|]. split; [now right|]. split; [apply (child_lt g HA z c Cc)|exact Ee].
        - destruct (descends_parent g HA _ _ _ HD t0 Ht0) as (q & Cq & Hq). destruct (child_lt g HA q t0 Cq) as (Lq & _ & Eq). rewrite edge_sym in Eq. assert (Hq' : In q (z :: l)) by (destruct Hq as [->|]; [now left|now right]).
          destruct (Nat.eq_dec t0 w) as [->|Nt].
          + exists q, z. rewrite edge_sym in Ee. split; [intros ->; apply Ne; apply (child_unique g _ _ w Cq C)|]. split; [exact Hq'|]. split; [now left|]. split; assumption.
          + destruct (descends_next g HA _ _ _ HD t0) as (c & Cc & Hc); [now right|exact Nt|]. destruct (child_lt g HA t0 c Cc) as (Lc & _ & Ec). exists q, c. split; [lia|]. split; [exact Hq'|]. split; [now right|]. split; assumption. }
      exists (nth i0 L (Essential EmptyString)), (nth j0 L (Essential EmptyString)). split; [intros E; apply Nij; apply Ij; [apply (edge_lt g t0 i0 (AR_GI g HA) Ei)|apply (edge_lt g t0 j0 (AR_GI g HA) Ej)|exact E]|].
      split; [now apply (in_map (fun i => nth i L (Essential EmptyString)))|]. split; [now apply (in_map (fun i => nth i L (Essential EmptyString)))|]. split; now apply Ed.
    + pose proof (descends_walk _ _ _ _ _ HD Hs Hu) as W. assert (W' : walk es m (S (List.length l)) (Essential s) (Essential t)).
      { apply (w_cons _ _ _ _ (inner_vertex m a b k i)); [exact W|]. apply (L_adj es m L g D w e _ _ Hu Ht). now rewrite edge_sym. }
      assert (s <> t) as N. { intros ->. pose proof (L_inj es m L g D _ _ _ Hs Ht). congruence. } pose proof (C67_paths es m s t _ Hm N W'). lia.
Qed.
Lemma high_edges x y : stem g m -> edge g x y = true -> x + 1 < y -> m <= y + 1.
Proof.
  intros (HN & St) E Lxy. destruct (Nat.le_gt_cases m (y + 1)) as [|G]; [assumption|]. exfalso. unfold g_n_vertices in HN. pose proof (edge_lt g x y (AR_GI g HA) E) as (_ & Ly & _).
  assert (NT : ~ tree_edge g x y) by (intros T; specialize (St x y ltac:(lia) T); lia). destruct (nontree_leaf x y ltac:(lia) E NT) as (_ & LF).
  destruct (has_parent g HA (y + 1)) as (w & C); [lia|lia|]. destruct (child_lt g HA w (y + 1) C) as (Lw & _). apply (te_child g HA) in C. pose proof (St w (y + 1) ltac:(lia) C). assert (w = y) by lia. subst w. now apply (LF (y + 1)).
Qed.
End Sub.

(** What the enumeration needs to know about the graph. *)
Record spread (g : rawg) (n : nat) : Prop := {
  sp_AR : AR g;
  sp_stem : stem g n;
  sp_stem2 : stem g 2;
  sp_branch : forall z l w, special g z -> branching g w -> descends g z l w -> l <> [] -> n <= List.length l + 1;
  sp_leaf : forall z l w, special g z -> leaf g w -> descends g z l w -> l <> [] -> n <= List.length l + 2;
  sp_nontree : forall x y, x < y -> edge g x y = true -> ~ tree_edge g x y -> leaf g y;
  sp_high : forall x y, edge g x y = true -> x + 1 < y -> n <= y + 1 }.
Lemma subdivided_spread es gr n sg : graph_from es = Some gr -> subdivided_graph_from gr n = Some sg -> connected (g_n_vertices (sg_data sg)) (edge (sg_data sg)) -> spread (sg_data sg) n.
Proof.
  intros E ES HC. pose proof (arranged_AR _ (ar_sub es gr n sg E ES HC)) as HA. destruct (C66_subdivision es gr n sg E ES) as (D & _ & HL & _). cbn zeta in D. set (m := Nat.max n 2) in *.
  destruct (sub_made gr n sg es E ES) as (g & p & HG & ET). pose proof (tree_base g _ p HG ET) as HB. pose proof (subdivided_stem es gr n sg E ES HC) as St. fold m in St.
  constructor; auto.
  - apply (stem_le _ m); [lia|exact St].
  - apply (stem_le _ m); [lia|exact St].
  - intros z l w S1 S2 HD Nl. assert (m <= List.length l + 1) by (apply (spread_branch es m (sg_list sg) (sg_data sg)) with (z := z) (w := w); auto; [lia|now left]). lia.
  - intros z l w S1 S2 HD Nl. assert (m <= List.length l + 2) by (apply (spread_leaf es m (sg_list sg) (sg_data sg)) with (z := z) (w := w); auto; lia). lia.
  - apply (nontree_leaf es m (sg_list sg) (sg_data sg)); auto; lia.
  - intros x y Exy Lxy. assert (m <= y + 1) by (apply (high_edges es m (sg_list sg) (sg_data sg)) with (x := x); auto; lia). lia.
Qed.
