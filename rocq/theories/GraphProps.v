(** C48, C49, C51, C52, C53: simple graphs. *)
From Coq Require Import List Arith NArith Bool Lia ZifyBool ZifyNat ZifyN Permutation Sorted.
From Verif Require Import UtilModel UtilSpec UtilProofs PidModel PermModel PermSpec PermProofs PermProofs2 PermProofs3 PermProofs4 PermProps MatModel SnfModel SnfProofs2 GraphModel GraphSpec GraphProofs GraphProofs2 GraphProofs3 GraphProofs4 GraphProofs5 GraphProofs6 GraphProofs7 GraphProofs8 SimpProofs7.
Import ListNotations.
Open Scope nat_scope.

Lemma action_GI g p h : GI g -> normal p -> g_action g p = Some h -> GI h.
Proof.
  intros HG Hp E. destruct (g_action_spec g p HG Hp) as (h' & E' & (A & _) & _); [|congruence].
  intros x Hx. destruct (Nat.lt_ge_cases x (g_n g)); [assumption|]. rewrite (g_action_bad g p x) in E by assumption. discriminate E.
Qed.
Lemma made_GI g : made g -> GI g.
Proof.
  induction 1 as [n g E|o g g' H IH E|p g g' H IH Hp E|g g' p H IH E].
  - destruct (Nat.eq_dec n 0) as [->|]; [discriminate E|]. destruct (new_GI n ltac:(lia)) as (g' & E' & HG & _). congruence.
  - pose proof (c_op_spec o g IH) as HO. destruct (op_ok (g_n g) o); [destruct HO as (g1 & E1 & HG & _); congruence|congruence].
  - eapply action_GI; eauto. now apply built_normal.
  - pose proof (maximal_tree_spec g IH) as HM. rewrite E in HM. apply HM.
Qed.

(** C48: after any history of calls the graph answers every query like the relation it stands for; the calls that panic are exactly those
    that do not name two vertices in increasing order below n. *)
Theorem C48_history : forall n h, 0 < n ->
  if forallb (op_ok n) h then exists g, run_graph n h = Some g /\ g_n_vertices g = n /\
    (forall i j, g_contains g i j = if (i <? j) && (j <? n) then Some (run_rel h i j) else None) /\
    g_n_edges g = length (filter (fun p => run_rel h (fst p) (snd p)) (pairs n)) /\
    (forall v, v < n -> adj g v = Some (filter (run_rel h v) (seq 0 n)) /\ degree_of g v = Some (length (filter (run_rel h v) (seq 0 n)))) /\
    (forall v, n <= v -> degree_of g v = None)
  else run_graph n h = None.
Proof.
  intros n h Hn. unfold run_graph, run_rel. destruct (new_GI n Hn) as (g0 & E0 & HG0 & N0 & T0 & R0). rewrite E0. cbn [obind].
  pose proof (run_ops n h g0 (fun _ _ => false) HG0 N0 R0) as H. destruct (forallb (op_ok n) h); [|exact H]. destruct H as (g & E & HG & N & T & R). exists g. split; [exact E|]. split; [exact N|].
  set (r := fold_left _ h _) in *. split; [|split; [|split]].
  - intros i j. destruct ((i <? j) && (j <? n)) eqn:C; [rewrite <- R; apply contains_edge; [assumption|lia|lia]|]. apply (add_edge_bad g i j HG). now rewrite N.
  - rewrite n_edges_spec by assumption. rewrite N. f_equal. apply filter_ext. intros p. apply R.
  - intros v Hv. rewrite degree_spec, adj_spec by (assumption || lia). rewrite N. replace (v <? n) with true by lia. rewrite (filter_ext (edge g v) (r v)) by (intros; apply R). auto.
  - intros v Hv. rewrite degree_spec by assumption. rewrite N. now replace (v <? n) with false by lia.
Qed.
Print Assumptions C48_history.
(** Two graphs that answer [contains] alike are equal (the derived [==] compares the stored fields). *)
Theorem C48_equality : forall g h, made g -> made h -> g_n_vertices g = g_n_vertices h -> g_tree g = g_tree h ->
  (forall i j, g_contains g i j = g_contains h i j) -> g = h.
Proof.
  intros g h Mg Mh Hn Ht HC. apply graph_ext; auto using made_GI. intros x y. unfold edge. now rewrite HC.
Qed.
Print Assumptions C48_equality.
Example C48_nontrivial : let h := [OpAdd 0 2; OpAdd 1 3; OpAdd 2 3; OpSwap 0 3; OpRemove 1 3; OpAdd 1 4; OpIsolate 4] in
  forallb (op_ok 5) h = true /\ option_map g_n_edges (run_graph 5 h) = Some 3 /\ forallb (op_ok 5) [OpAdd 2 1] = false.
Proof. vm_compute. auto. Qed.

(** C49: with two vertices or more the answer is right; with one vertex it is wrong. *)
Theorem C49_is_connected_partial : forall g, made g -> 2 <= g_n_vertices g ->
  exists b, g_is_connected g = Some b /\ (b = true <-> connected (g_n_vertices g) (edge g)).
Proof.
  intros g Mg Hn. destruct (is_connected_spec g (made_GI g Mg)) as (b & E & H). exists b. split; [exact E|]. unfold g_n_vertices in *. tauto.
Qed.
Print Assumptions C49_is_connected_partial.
Theorem C49_refuted_one_vertex : forall g, made g -> g_n_vertices g = 1 -> connected 1 (edge g) /\ g_is_connected g = Some false.
Proof.
  intros g Mg Hn. split; [intros x y Hx Hy; replace x with 0 by lia; replace y with 0 by lia; constructor|].
  destruct (is_connected_spec g (made_GI g Mg)) as (b & E & H). rewrite E. destruct b; [|reflexivity]. unfold g_n_vertices in Hn. destruct (proj1 H eq_refl). lia.
Qed.
Print Assumptions C49_refuted_one_vertex.
Example C49_nontrivial : (do g <- run_graph 4 [OpAdd 0 2; OpAdd 1 3]; g_is_connected g) = Some false /\
  (do g <- run_graph 4 [OpAdd 0 2; OpAdd 1 3; OpAdd 1 2]; g_is_connected g) = Some true.
Proof. vm_compute. auto. Qed.

(** C51: the iterator yields (0, 1) first, whether or not it is an edge, then every other edge once. *)
Theorem C51_edges_partial : forall g, made g -> edge g 0 1 = true ->
  exists l, edge_iter g = Some l /\ NoDup l /\ forall i j, In (i, j) l <-> i < j /\ g_contains g i j = Some true.
Proof.
  intros g Mg H01. pose proof (made_GI g Mg) as HG. pose proof (edge_lt g 0 1 HG H01) as (_ & Hn & _). destruct (edge_iter_spec g HG ltac:(lia)) as (l & E & ND & HI).
  exists ((0, 1) :: l). split; [exact E|]. split; [constructor; [intros K; apply HI in K; destruct K as (_ & _ & _ & K); congruence|exact ND]|]. intros i j. split.
  - intros [[= <- <-]|K]; [split; [lia|rewrite contains_edge by (assumption || lia); congruence]|]. apply HI in K. destruct K as (A & B & C & _). split; [exact A|]. rewrite contains_edge by assumption. congruence.
  - intros [A B]. destruct (Nat.lt_ge_cases j (g_n g)) as [K|K]; [|rewrite (proj2 (proj2 (add_edge_bad g i j HG ltac:(lia)))) in B; discriminate B]. rewrite contains_edge in B by assumption. injection B as B.
    destruct (Nat.eq_dec i 0) as [Ei|Ei], (Nat.eq_dec j 1) as [Ej|Ej]; [left; congruence| | |]; right; apply HI; (split; [exact A|]; split; [exact K|]; split; [exact B|]; congruence).
Qed.
Print Assumptions C51_edges_partial.
Theorem C51_refuted_phantom_edge : forall g, made g -> 2 <= g_n_vertices g -> edge g 0 1 = false ->
  exists l, edge_iter g = Some ((0, 1) :: l) /\ NoDup l /\ forall i j, In (i, j) l <-> i < j /\ g_contains g i j = Some true.
Proof.
  intros g Mg Hn H01. pose proof (made_GI g Mg) as HG. destruct (edge_iter_spec g HG Hn) as (l & E & ND & HI). exists l. split; [exact E|]. split; [exact ND|]. intros i j. rewrite HI. split.
  - intros (A & B & C & _). split; [exact A|]. rewrite contains_edge by assumption. congruence.
  - intros [A B]. destruct (Nat.lt_ge_cases j (g_n g)) as [K|K]; [|rewrite (proj2 (proj2 (add_edge_bad g i j HG ltac:(lia)))) in B; discriminate B]. rewrite contains_edge in B by assumption. injection B as B.
    split; [exact A|]. split; [exact K|]. split; [exact B|]. intros [= -> ->]. congruence.
Qed.
Print Assumptions C51_refuted_phantom_edge.
Theorem C51_one_vertex : forall g, g_n_vertices g = 1 -> edge_iter g = Some [].
Proof. intros g H. unfold edge_iter. unfold g_n_vertices in H. now rewrite H. Qed.
Print Assumptions C51_one_vertex.
Example C51_nontrivial : (do g <- run_graph 4 [OpAdd 0 1; OpAdd 1 3; OpAdd 2 3; OpAdd 0 3]; edge_iter g) = Some [(0, 1); (2, 3); (1, 3); (0, 3)] /\
  (do g <- run_graph 2 []; edge_iter g) = Some [(0, 1)].
Proof. vm_compute. auto. Qed.

Lemma pairs_NoDup n : NoDup (pairs n).
Proof. assert (K : NoDup (map (fun q => tri (snd q) + fst q) (pairs n))) by (rewrite seq_tri; apply seq_NoDup). now apply NoDup_map_inv in K. Qed.
Lemma n_edges_le g h f : GI g -> GI h -> (forall x y, f x = f y -> x = y) -> (forall x y, edge h (f x) (f y) = edge g x y) -> g_n_edges g <= g_n_edges h.
Proof.
  intros HG HH Inj R. rewrite !n_edges_spec by assumption. pose (q := fun e : nat * nat => (Nat.min (f (fst e)) (f (snd e)), Nat.max (f (fst e)) (f (snd e)))).
  rewrite <- (map_length q). apply NoDup_incl_length.
  - apply NoDup_map_inj; [|apply NoDup_filter, pairs_NoDup]. intros [a b] [c d] H1 H2. apply filter_In in H1, H2. destruct H1 as [H1 _], H2 as [H2 _]. apply in_pairs in H1, H2. unfold q. cbn [fst snd]. intros [= E1 E2].
    assert (K : (f a = f c /\ f b = f d) \/ (f a = f d /\ f b = f c)) by lia. destruct K as [[K1 K2]|[K1 K2]]; apply Inj in K1, K2; [congruence|lia].
  - intros [u w] H. apply in_map_iff in H. destruct H as ([a b] & [= <- <-] & H). apply filter_In in H. cbn [fst snd] in *. destruct H as [H E]. apply in_pairs in H. rewrite <- R in E. pose proof (edge_lt h _ _ HH E) as (K1 & K2 & K3).
    apply filter_In. cbn [fst snd]. split; [apply in_pairs; lia|]. destruct (Nat.le_ge_cases (f a) (f b)) as [K|K]; [rewrite Nat.min_l, Nat.max_r by lia; exact E|]. rewrite Nat.min_r, Nat.max_l by lia. now rewrite edge_sym.
Qed.
(** C52: acting by p renames vertex x to p x; it panics exactly when p moves a number that is not a vertex. *)
Theorem C52_relabel : forall g p, made g -> built p -> (forall x, pmap p x <> x -> x < g_n_vertices g) ->
  exists h, g_action g p = Some h /\ made h /\ g_n_vertices h = g_n_vertices g /\ g_n_edges h = g_n_edges g /\
    (forall x y, edge h (pmap p x) (pmap p y) = edge g x y).
Proof.
  intros g p Mg Bp HS. pose proof (made_GI g Mg) as HG. pose proof (built_normal p Bp) as Hp. destruct (g_action_spec g p HG Hp HS) as (h & E & (HGh & N & T) & R).
  exists h. split; [exact E|]. split; [now apply (made_action p g)|]. split; [exact N|]. split; [|exact R].
  apply Nat.le_antisymm.
  - destruct (pinverse_spec p Hp) as (q & _ & Hq & Q1 & Q2). apply (n_edges_le h g (pmap q)); auto; [apply pmap_bijective, normal_disj, Hq|]. intros x y. now rewrite <- R, !Q2.
  - apply (n_edges_le g h (pmap p)); auto. apply pmap_bijective, normal_disj, Hp.
Qed.
Print Assumptions C52_relabel.
Theorem C52_panics : forall g p x, made g -> built p -> pmap p x <> x -> g_n_vertices g <= x -> g_action g p = None.
Proof. intros g p x Mg Bp. apply g_action_bad; [now apply made_GI|now apply built_normal]. Qed.
Print Assumptions C52_panics.
(** Acting by a product is acting by the right factor, then by the left one. *)
Theorem C52_product : forall g p q, made g -> built p -> built q -> (forall x, pmap p x <> x -> x < g_n_vertices g) -> (forall x, pmap q x <> x -> x < g_n_vertices g) ->
  exists r u w, pmul p q = Some r /\ g_action g q = Some u /\ g_action u p = Some w /\ g_action g r = Some w.
Proof. intros g p q Mg Bp Bq. apply g_action_mul; [now apply made_GI|now apply built_normal|now apply built_normal]. Qed.
Print Assumptions C52_product.
Example C52_nontrivial : (do g <- run_graph 4 [OpAdd 0 1; OpAdd 1 3]; do p <- from_disjoint_cycles [[0; 1; 2]]; do h <- g_action g p; edge_iter h) = Some [(0, 1); (1, 2); (2, 3)].
Proof. vm_compute. reflexivity. Qed.

(** C53: which graphs have a base point, and what is returned for them. *)
Theorem C53_panics_without_base_refuted : forall g, made g -> (choose_maximal_tree g = None <-> forall v, ~ good_base (g_n_vertices g) (edge g) v).
Proof.
  intros g Mg. pose proof (maximal_tree_spec g (made_GI g Mg)) as H. destruct (choose_maximal_tree g) as [[h p]|]; [|split; auto].
  split; [discriminate|]. intros K. destruct H as ((v & Hv) & _). exfalso. exact (K v Hv).
Qed.
Print Assumptions C53_panics_without_base_refuted.
Lemma tree_edge_child h i j : GI h -> g_tree h = true -> tree_edge h i j <-> child h i j.
Proof.
  intros HG HT. unfold tree_edge. split.
  - intros E. destruct (Nat.lt_ge_cases i j) as [K|K].
    + destruct (Nat.lt_ge_cases j (g_n h)) as [K2|K2]; [rewrite tree_contains_spec in E by assumption; injection E as E; now apply childb_iff|].
      unfold tree_contains in E. rewrite HT, (proj2 (proj2 (add_edge_bad h i j HG ltac:(lia)))) in E. discriminate E.
    + unfold tree_contains in E. rewrite HT, (proj2 (proj2 (add_edge_bad h i j HG ltac:(lia)))) in E. discriminate E.
  - intros C. pose proof C as (K & E & _). pose proof (edge_lt h i j HG E) as (_ & K2 & _). rewrite tree_contains_spec by assumption. f_equal. now apply childb_iff.
Qed.
(** The result is the old graph relabelled by the returned permutation, and the tree edges form a spanning tree rooted at 0, numbered so that
    every other vertex has exactly one smaller tree neighbour; depth first; and at each vertex the branches with an edge back to before that vertex
    come last. *)
Theorem C53_tree_partial : forall g v, made g -> connected (g_n_vertices g) (edge g) -> good_base (g_n_vertices g) (edge g) v ->
  exists h p, choose_maximal_tree g = Some (h, p) /\ normal p /\ (forall x, x < g_n_vertices g <-> pmap p x < g_n_vertices g) /\ g_n_vertices h = g_n_vertices g /\
    (forall x y, edge h (pmap p x) (pmap p y) = edge g x y) /\
    (forall j, 0 < j < g_n_vertices h -> exists i, tree_edge h i j /\ i < j /\ edge h i j = true /\ forall i', tree_edge h i' j -> i' = i) /\
    (forall x y, x < y -> y < g_n_vertices h -> edge h x y = true -> path (fun a b => match tree_contains h a b with Some true => true | _ => false end) x y) /\
    (forall i c1 c2, tree_edge h i c1 -> tree_edge h i c2 -> c1 < c2 -> returns_before h i c1 -> returns_before h i c2).
Proof.
  intros g v Mg HC Hv. unfold g_n_vertices in *. pose proof (maximal_tree_spec g (made_GI g Mg)) as H. destruct (choose_maximal_tree g) as [[h p]|]; [|exfalso; exact (H v Hv)].
  destruct H as (_ & R & T & D). destruct (D HC) as [D1 D2]. pose proof (L_GI _ _ _ R) as HG. pose proof (relab_connected _ _ _ R HC) as HCh. exists h, p. split; [reflexivity|]. split; [apply R|].
  split; [apply supp_lt; apply R|]. split; [apply R|]. split; [apply R|]. split; [|split].
  - intros j Hj. destruct (parent h j HG HCh D1) as (i & A & B); [lia|lia|]. exists i. split; [now apply tree_edge_child|]. split; [apply A|]. split; [apply A|]. intros i' Hi'. apply B. now apply tree_edge_child in Hi'.
  - assert (K : forall y x, x < y -> y < g_n h -> edge h x y = true -> path (fun a b => match tree_contains h a b with Some true => true | _ => false end) x y).
    { induction y as [y IH] using lt_wf_ind. intros x Hx Hy E. destruct (parent h y HG HCh D1) as (i & A & B); [lia|lia|]. assert (Hi : x <= i).
      { destruct A as (A1 & A2 & A3). destruct (Nat.lt_ge_cases i x) as [K|K]; [|exact K]. rewrite A3 in E by lia. discriminate E. }
      assert (St : path (fun a b => match tree_contains h a b with Some true => true | _ => false end) i y).
      { apply (p_step _ _ i); [constructor|]. apply tree_edge_child in A; [|assumption|assumption]. unfold tree_edge in A. now rewrite A. }
      destruct (Nat.eq_dec x i) as [->|Hne]; [exact St|]. pose proof A as (A1 & A2 & A3).
      (* an edge from x into the subtree: i has a neighbour at or after x *)
      apply (path_trans _ x i y); [|exact St]. clear St.
      assert (W : forall m, x <= m -> m < y -> (exists z, m < z /\ z < g_n h /\ edge h x z = true) -> path (fun a b => match tree_contains h a b with Some true => true | _ => false end) x m).
      { induction m as [m IHm] using lt_wf_ind. intros H1 H2 (z & Hz & Hzn & Ez). destruct (Nat.eq_dec x m) as [->|]; [constructor|].
        destruct (parent h m HG HCh D1) as (k & C1 & _); [lia|lia|]. destruct (D1 m x z ltac:(lia) Hz Ez) as (l & Hl & El). pose proof C1 as (C2 & C3 & C4).
        assert (x <= k). { destruct (Nat.lt_ge_cases k l) as [K|K]; [rewrite C4 in El by lia; discriminate El|lia]. }
        apply (path_trans _ x k m).
        - apply IHm; [exact C2|assumption|lia|exists z; split; [lia|]; split; [exact Hzn|exact Ez]].
        - apply (p_step _ _ k); [constructor|]. apply tree_edge_child in C1; [|assumption|assumption]. unfold tree_edge in C1. now rewrite C1. }
      apply W; [lia|lia|]. exists y. split; [lia|]. split; [exact Hy|exact E]. }
    intros x y Hx Hy E. now apply K.
  - assert (BO : forall i c l, in_branch h i c l <-> branch_of h i c l).
    { intros i c l. unfold in_branch, branch_of. split; intros [K1 K2]; (split; [exact K1|]); intros c'; [intros A B; apply K2; [exact B|now apply tree_edge_child]|intros A B; apply K2; [now apply tree_edge_child in B|exact A]]. }
    intros i c1 c2 H1 H2 Hlt (k & l & Hk & Hb & E). apply tree_edge_child in H1, H2; try assumption. destruct (D2 i c1 c2 H1 H2 Hlt) as (k2 & l2 & K1 & K2 & K3); [exists k, l; split; [exact Hk|]; split; [now apply BO|exact E]|].
    exists k2, l2. split; [exact K1|]. split; [now apply BO|exact K3].
Qed.
Print Assumptions C53_tree_partial.
(** Connected graphs without such a base point exist: every cycle panics. *)
Theorem C53_refuted_cycles : forall g, made g -> (forall v, v < g_n_vertices g -> deg (g_n_vertices g) (edge g) v = 2) -> choose_maximal_tree g = None.
Proof. intros g Mg H. apply C53_panics_without_base_refuted; [exact Mg|]. intros v (Hv & [K|[K _]]); specialize (H v Hv); lia. Qed.
Print Assumptions C53_refuted_cycles.
Definition ex_cycle := run_graph 3 [OpAdd 0 1; OpAdd 1 2; OpAdd 0 2].
Definition ex_graph := run_graph 6 [OpAdd 0 2; OpAdd 1 2; OpAdd 0 3; OpAdd 1 3; OpAdd 2 4; OpAdd 3 5; OpAdd 1 5].
Example C53_nontrivial : (do g <- ex_cycle; do b <- g_is_connected g; Some (b, match choose_maximal_tree g with Some _ => false | None => true end)) = Some (true, true) /\
  (do g <- ex_graph; do r <- choose_maximal_tree g; do es <- edge_iter (fst r); do ts <- omap (fun e => tree_contains (fst r) (fst e) (snd e)) es; Some (combine es ts, snd r)) =
   Some ([((0, 1), true); ((1, 2), true); ((1, 3), true); ((3, 4), true); ((0, 4), false); ((4, 5), true); ((0, 5), false)], [[0; 3; 4; 2; 1]]).
Proof. vm_compute. auto. Qed.
Example C53_nontrivial_hyp : exists g, ex_graph = Some g /\ good_base (g_n_vertices g) (edge g) 4.
Proof. eexists. split; [vm_compute; reflexivity|]. split; [vm_compute; lia|left; vm_compute; reflexivity]. Qed.
