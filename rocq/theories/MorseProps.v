(** C94-C97: discrete Morse theory of graph configuration spaces. *)
From Coq Require Import String List Arith ZArith Bool Lia Sorted Permutation.
From Verif Require Import PidModel SnfModel MatModel LinModel GraphModel GraphSpec GraphProofs GraphProofs3 GraphProofs5 GraphProofs7 GraphProofs8 GraphProps LabGraphModel SubdivProps
  EdgePathModel EdgePathSpec EdgePathProofs5 EdgePathProps
  CubeModel CubeSpec CubeProofs CubeProps CubePartialModel MorseModel MorseSpec MorseProofs MorseProofs2 MorseProofs3 MorseProofs4 MorseProofs5 MorseProofs6.
Import ListNotations.
Open Scope nat_scope.
Open Scope list_scope.

(** C94: [CubeFactor::flow] gives the only tree edge towards the base point; it panics at the base point, outside the graph, and for edges. *)
Theorem C94_flow : forall g v, arranged g ->
  match f_flow g (FVertex v) with
  | Some e => 0 < v < g_n_vertices g /\ exists w, e = FEdge w v /\ w < v /\ tree_edge g w v /\ forall w', tree_edge g w' v -> w' = w
  | None => v = 0 \/ g_n_vertices g <= v
  end /\ forall x y, f_flow g (FEdge x y) = None.
Proof.
  intros g v Hg. pose proof (arranged_AR g Hg) as HA. split; [|reflexivity]. unfold g_n_vertices. destruct (Nat.eq_dec v 0) as [->|N]; [now left|].
  destruct (Nat.lt_ge_cases v (g_n g)) as [L|L]; [|rewrite (f_flow_out g HA v L); now right]. destruct (has_parent g HA v) as (w & C); [lia|exact L|]. rewrite (f_flow_child g HA w v C).
  destruct (child_lt g HA w v C) as (Lw & _). split; [lia|]. exists w. split; [reflexivity|]. split; [exact Lw|]. split; [now apply te_child|]. intros w' T. apply (te_child g HA) in T. symmetry. now apply (child_unique g _ _ v C).
Qed.
Print Assumptions C94_flow.
(** [is_blocked] for a vertex of the graph, whatever the cell. *)
Theorem C94_blocked : forall g c v, arranged g -> v < g_n_vertices g -> exists b, is_blocked g c (FVertex v) = Some b /\ (b = true <-> blocked g c v).
Proof. intros g c v Hg Hv. exact (is_blocked_spec g (arranged_AR g Hg) c v Hv). Qed.
Print Assumptions C94_blocked.
(** [Cube::property] looks for the first mobile factor: an unblocked vertex or a respected tree edge.  It never panics. *)
Theorem C94_property : forall g c, arranged g -> Forall (closed_cell g) c ->
  (property g c = Some Critical <-> forall f, In f c -> ~ mobile g c f) /\
  (forall i, property g c = Some (Redundant i) <-> exists v, first_mobile g c i (FVertex v)) /\
  (forall i, property g c = Some (Collapsible i) <-> exists x y, first_mobile g c i (FEdge x y)) /\
  property g c <> None.
Proof.
  intros g c Hg HF. pose proof (arranged_AR g Hg) as HA. split; [now apply property_critical|]. split; [intros i; now apply property_redundant|]. split; [intros i; now apply property_collapsible|].
  destruct (property_spec g HA c HF) as [(E & _)|(i & f & E & _)]; rewrite E; discriminate.
Qed.
Print Assumptions C94_property.

(** C95: points flow to a settled configuration by moves towards the base point; the boundary is never consulted. *)
Theorem C95_flow : forall g l bd, arranged g -> points g l -> StronglySorted lt l ->
  exists l', (forall fuel, List.length l * g_n_vertices g < fuel -> cube_flow bd fuel g (map FVertex l) = Some [(1%Z, map FVertex l')]) /\
    points g l' /\ StronglySorted lt l' /\ List.length l' = List.length l /\ (forall v, In v l' -> blocked g (map FVertex l') v) /\
    exists t w, moves l w t /\ Permutation t l' /\ inwards g w.
Proof.
  intros g l bd Hg [ND HL] SS. pose proof (arranged_AR g Hg) as HA. destruct (flow_points g HA bd _ l eq_refl SS HL) as (l' & F1 & F2 & F3 & F4 & F5 & F6). exists l'.
  split; [|split; [split; [now apply sorted_NoDup|exact F3]|split; [exact F2|split; [exact F4|split; [exact F5|exact F6]]]]].
  intros fuel Hf. apply F1. pose proof (list_sum_bound (g_n g) l HL). unfold g_n_vertices in Hf. lia.
Qed.
Print Assumptions C95_flow.
(** When the tree starts with a path of n vertices, n points always settle on those. *)
Theorem C95_settles : forall g l n bd, arranged g -> stem g n -> points g l -> StronglySorted lt l -> List.length l = n ->
  forall fuel, n * g_n_vertices g < fuel -> cube_flow bd fuel g (map FVertex l) = Some [(1%Z, map FVertex (seq 0 n))].
Proof.
  intros g l n bd Hg St Hl SS Len fuel Hf. destruct (C95_flow g l bd Hg Hl SS) as (l' & F1 & [F2 F2'] & F3 & F4 & F5 & _). rewrite Len in *. rewrite F1 by exact Hf.
  rewrite (settled_sorted g (arranged_AR g Hg) n l' St F3 F2' F4 F5). reflexivity.
Qed.
Print Assumptions C95_settles.
(** It does for graphs subdivided for n points (and for two points when n < 2). *)
Theorem C95_subdivided : forall es gr n sg, graph_from es = Some gr -> subdivided_graph_from gr n = Some sg ->
  connected (g_n_vertices (sg_data sg)) (edge (sg_data sg)) -> stem (sg_data sg) n /\ stem (sg_data sg) (Nat.max n 2).
Proof. intros es gr n sg E ES HC. pose proof (subdivided_stem es gr n sg E ES HC) as H. split; [|exact H]. apply (stem_le _ (Nat.max n 2)); [lia|exact H]. Qed.
Print Assumptions C95_subdivided.
(** Without subdivision the base point still has only one child. *)
Theorem C95_base : forall g h p, made g -> connected (g_n_vertices g) (edge g) -> choose_maximal_tree g = Some (h, p) -> 2 <= g_n_vertices g -> stem h 2.
Proof.
  intros g h p Mg HC E H2. pose proof (arranged_AR h (ar_tree g h p Mg HC E)) as HA. pose proof (tree_base g h p (made_GI g Mg) E) as HB. pose proof (maximal_tree_spec g (made_GI g Mg)) as HM. rewrite E in HM. destruct HM as (_ & R & _).
  split; [unfold g_n_vertices in *; rewrite (L_n _ _ _ R); exact H2|]. intros k j Hk T. assert (k = 0) by lia. subst k. apply (te_child h HA) in T. now apply (base_child h HA HB).
Qed.
Print Assumptions C95_base.

(** C96: the edge path of a one-dimensional configuration never panics.  It is a geodesic from one settled configuration to another, homotopic to:
    backwards along inward moves, across the edge, and inwards again. *)
Theorem C96_edge_path : forall g n c, arranged g -> configuration g n c -> dimension c = 1 ->
  exists r f1 f2 a b w1 w2, (forall fuel, n * g_n_vertices g < fuel -> get_edge_path fuel g c = Some r) /\
    In (FEdge a b) c /\ inwards g w1 /\ inwards g w2 /\ homotopic (concat r) (backwards w1 ++ (b, a) :: w2) /\
    (forall w, homotopic (concat r) w -> List.length (concat r) <= List.length w) /\ Forall parallel r /\
    points g f1 /\ points g f2 /\ List.length f1 = n /\ List.length f2 = n /\
    (forall v, In v f1 -> blocked g (map FVertex f1) v) /\ (forall v, In v f2 -> blocked g (map FVertex f2) v) /\ moves f1 (concat r) f2.
Proof. intros g n c Hg HC H1. exact (edge_path_spec g (arranged_AR g Hg) n c HC H1). Qed.
Print Assumptions C96_edge_path.
(** On a graph whose tree starts with a path of n vertices it is a loop: it permutes the points on 0, .., n-1, and evaluates to that permutation. *)
Theorem C96_loop : forall g n c, arranged g -> stem g n -> configuration g n c -> dimension c = 1 ->
  exists r s, (forall fuel, n * g_n_vertices g < fuel -> get_edge_path fuel g c = Some r) /\
    Permutation s (seq 0 n) /\ moves (seq 0 n) (concat r) s /\ evaluate n r = Some s.
Proof.
  intros g n c Hg St HC H1. pose proof (arranged_AR g Hg) as HA. destruct (C96_edge_path g n c Hg HC H1) as (r & f1 & f2 & a & b & w1 & w2 & E & _ & _ & _ & _ & _ & P & O1 & O2 & L1 & L2 & B1 & B2 & M).
  pose proof (settled_perm g HA n f1 St O1 L1 B1) as P1. pose proof (settled_perm g HA n f2 St O2 L2 B2) as P2. destruct (moves_perm _ _ _ M _ P1) as (s & Ms & Ps). exists r, s.
  split; [exact E|]. split; [rewrite <- Ps; exact P2|]. split; [exact Ms|]. now apply evaluate_spec.
Qed.
Print Assumptions C96_loop.
(** Paths to and from the base configuration. *)
Theorem C96_base_path : forall g l, arranged g -> points g l ->
  exists r q f w, (forall fuel, List.length l * g_n_vertices g < fuel -> get_edge_path_to_from_base_pt fuel g (map FVertex l) true = Some r /\ get_edge_path_to_from_base_pt fuel g (map FVertex l) false = Some q) /\
    inwards g w /\ homotopic (concat r) w /\ (forall w', homotopic (concat r) w' -> List.length (concat r) <= List.length w') /\ Forall parallel r /\
    points g f /\ List.length f = List.length l /\ (forall v, In v f -> blocked g (map FVertex f) v) /\
    moves l (concat r) f /\ moves f (concat q) l /\ reduce (composed_with r q) = Some [[]] /\
    (stem g (List.length l) -> Permutation f (seq 0 (List.length l))).
Proof.
  intros g l Hg Hl. pose proof (arranged_AR g Hg) as HA. destruct (base_path_spec g HA l Hl) as (r & q & f & w & E & I & H & Min & P & O & Len & B & M1 & M2 & Ec). exists r, q, f, w.
  repeat (split; [assumption|]). intros St. now apply (settled_perm g HA).
Qed.
Print Assumptions C96_base_path.
(** Calls outside the domain: no edge to follow, or an edge where only points are allowed. *)
Theorem C96_panics : forall fuel g c b, (dimension c = 0 -> get_edge_path fuel g c = None) /\ (0 < dimension c -> get_edge_path_to_from_base_pt fuel g c b = None).
Proof.
  intros fuel g c b. split; intros H.
  - unfold get_edge_path. replace (find is_edge c) with (@None factor); [reflexivity|]. symmetry. induction c as [|f t IH]; [reflexivity|]. destruct f as [x y|v]; cbn in *; [discriminate H|now apply IH].
  - unfold get_edge_path_to_from_base_pt. replace (forallb is_vertex c) with false; [reflexivity|]. symmetry. induction c as [|f t IH]; [cbn in H; lia|]. destruct f as [x y|v]; cbn in *; [reflexivity|now apply IH].
Qed.
Print Assumptions C96_panics.

(** C97: redundant and collapsible cells are paired, when all other factors lie on one side of the edge of the pair. *)
Theorem C97_matching_partial : forall g n c u w, arranged g -> configuration g n c -> listed c -> tree_edge g w u -> free c w u ->
  (forall i, property g c = Some (Redundant i) -> nth_error c i = Some (FVertex u) ->
    exists j, let c' := f_sort (lset c i (FEdge w u)) in property g c' = Some (Collapsible j) /\ nth_error c' j = Some (FEdge w u) /\
      configuration g n c' /\ listed c' /\ f_sort (lset c' j (FVertex u)) = c) /\
  (forall i, property g c = Some (Collapsible i) -> nth_error c i = Some (FEdge w u) ->
    exists j, let c' := f_sort (lset c i (FVertex u)) in property g c' = Some (Redundant j) /\ nth_error c' j = Some (FVertex u) /\
      configuration g n c' /\ listed c' /\ f_sort (lset c' j (FEdge w u)) = c).
Proof.
  intros g n c u w Hg (Len & HF & PD) HL T Fr. pose proof (arranged_AR g Hg) as HA. apply (te_child g HA) in T.
  assert (Ln : forall i f f', nth_error c i = Some f -> List.length (f_sort (lset c i f')) = n).
  { intros i f f' H. rewrite (Permutation_length (f_sort_perm _)). destruct (lset_split c i f f' H) as (a & b & -> & ->). rewrite app_length in *. cbn in *. exact Len. }
  split; intros i P Hi.
  - pose proof (proj1 (property_redundant g HA c i HF) P) as (v & FM). assert (v = u) by (destruct FM as (K & _); congruence). subst v.
    destruct (pair_up g HA c i u w HL PD HF FM T Fr) as (j & F1 & F2 & F3 & F4 & F5). exists j. cbn zeta. split; [apply (property_collapsible g HA); eauto|]. split; [apply F1|]. split; [split; [eapply Ln; eauto|split; assumption]|]. split; assumption.
  - pose proof (proj1 (property_collapsible g HA c i HF) P) as (x & y & FM). assert (x = w /\ y = u) as (-> & ->) by (destruct FM as (K & _); split; congruence).
    destruct (pair_down g HA c i u w HL PD HF FM Fr) as (j & F1 & F2 & F3 & F4 & F5). exists j. cbn zeta. split; [apply (property_redundant g HA); eauto|]. split; [apply F1|]. split; [split; [eapply Ln; eauto|split; assumption]|]. split; assumption.
Qed.
Print Assumptions C97_matching_partial.
(** The condition holds for all redundant cells of dimension 0 and all collapsible cells of dimension 1. *)
Theorem C97_low : forall g n c u w, arranged g -> configuration g n c -> listed c -> tree_edge g w u ->
  (forall i, dimension c = 0 -> property g c = Some (Redundant i) -> nth_error c i = Some (FVertex u) -> free c w u) /\
  (forall i, dimension c = 1 -> property g c = Some (Collapsible i) -> nth_error c i = Some (FEdge w u) -> free c w u).
Proof.
  intros g n c u w Hg (Len & HF & PD) HL T. pose proof (arranged_AR g Hg) as HA. split; intros i D P Hi.
  - pose proof (proj1 (property_redundant g HA c i HF) P) as (v & FM). assert (v = u) by (destruct FM as (K & _); congruence). subst v. apply (te_child g HA) in T. exact (points_free g HA c i u w HL PD HF D FM T).
  - pose proof (proj1 (property_collapsible g HA c i HF) P) as (x & y & FM). assert (x = w /\ y = u) as (-> & ->) by (destruct FM as (K & _); split; congruence). apply (edge_free g HA c i); auto. apply FM.
Qed.
Print Assumptions C97_low.

(** The graph of the refutation: two essential vertices of degree three, subdivided for three points. *)
Open Scope string_scope.
Definition H_tree : list (string * string) := [("a","b"); ("b","c"); ("c","d"); ("c","e"); ("b","f")].
Close Scope string_scope.
Definition H_graph (n : nat) : option rawg := do gr <- graph_from H_tree; do sg <- subdivided_graph_from gr n; Some (sg_data sg).
(** Vertices 0-1-2-3-4-5-6 in a row, 7-8 hanging at 4 and 9-10 at 2. *)
Lemma subdivided_connected es gr n sg : graph_from es = Some gr -> subdivided_graph_from gr n = Some sg -> g_is_connected (sg_data sg) = Some true ->
  connected (g_n_vertices (sg_data sg)) (edge (sg_data sg)).
Proof.
  intros E ES HC. destruct (sub_made gr n sg es E ES) as (g & p & HG & ET). pose proof (maximal_tree_spec g HG) as HM. rewrite ET in HM. destruct HM as (_ & R & _).
  destruct (is_connected_spec (sg_data sg) (L_GI _ _ _ R)) as (b & Eb & Hb). rewrite HC in Eb. injection Eb as <-. pose proof (sub_size es gr n sg E ES). unfold g_n_vertices in *. now apply Hb.
Qed.
Lemma H_arranged n g : H_graph n = Some g -> g_is_connected g = Some true -> arranged g /\ stem g n.
Proof.
  unfold H_graph. destruct (graph_from H_tree) as [gr|] eqn:E; [|discriminate]. cbn [obind]. destruct (subdivided_graph_from gr n) as [sg|] eqn:ES; [|discriminate]. cbn [obind]. intros K HC. injection K as <-.
  pose proof (subdivided_connected _ _ _ _ E ES HC) as C. split; [now apply (ar_sub H_tree gr n sg)|]. now apply (C95_subdivided H_tree gr n sg).
Qed.
Definition cellsb (g : rawg) (c : list factor) : bool :=
  forallb (fun f => match f with FVertex x => x <? g_n_vertices g | FEdge x y => (x <? y) && edge g x y end) c &&
  (fix pdb l := match l with [] => true | f :: t => forallb (fun f' => forallb (fun v => negb (existsb (Nat.eqb v) (verts f'))) (verts f)) t && pdb t end) c.
Lemma cellsb_spec g c : cellsb g c = true -> configuration g (List.length c) c.
Proof.
  unfold cellsb. intros H. apply andb_true_iff in H as (H1 & H2). split; [reflexivity|]. split.
  - apply Forall_forall. intros f Hf. rewrite forallb_forall in H1. specialize (H1 f Hf). destruct f as [x y|x]; cbn in *; [|now apply Nat.ltb_lt]. apply andb_true_iff in H1 as (A & B). split; [now apply Nat.ltb_lt|exact B].
  - clear H1. induction c as [|f t IH]; [constructor|]. apply andb_true_iff in H2 as (A & B). constructor; [|now apply IH]. apply Forall_forall. intros f' Hf' v Hv Hv'. rewrite forallb_forall in A. specialize (A f' Hf'). rewrite forallb_forall in A.
    specialize (A v Hv). apply negb_true_iff in A. assert (existsb (Nat.eqb v) (verts f') = true) as K by (apply existsb_exists; exists v; split; [exact Hv'|apply Nat.eqb_refl]). congruence.
Qed.

(** The full claim - every redundant cell is the face of a collapsible cell at the same edge - is false.  The partner can be critical: *)
Theorem C97_refuted : exists g c c', arranged g /\ configuration g 3 c /\ listed c /\ stem g 3 /\ property g c = Some (Redundant 2) /\ nth_error c 2 = Some (FVertex 9) /\
  f_flow g (FVertex 9) = Some (FEdge 2 9) /\ c' = f_sort (lset c 2 (FEdge 2 9)) /\ configuration g 3 c' /\ property g c' = Some Critical.
Proof.
  destruct (H_graph 3) as [g|] eqn:E; [|vm_compute in E; discriminate E]. exists g, [FEdge 4 7; FVertex 5; FVertex 9], [FEdge 2 9; FEdge 4 7; FVertex 5].
  assert (HC : g_is_connected g = Some true) by (vm_compute in E; injection E as <-; vm_compute; reflexivity).
  destruct (H_arranged 3 g E HC) as (A & St). split; [exact A|]. vm_compute in E. injection E as Eg.
  split; [apply cellsb_spec; rewrite <- Eg; vm_compute; reflexivity|]. split; [repeat constructor|]. split; [exact St|]. rewrite <- Eg. split; [vm_compute; reflexivity|]. split; [reflexivity|]. split; [vm_compute; reflexivity|]. split; [reflexivity|].
  split; [apply cellsb_spec; vm_compute; reflexivity|]. vm_compute. reflexivity.
Qed.
Print Assumptions C97_refuted.
(** or collapsible at another edge: *)
Theorem C97_edge_refuted : exists g c c', arranged g /\ configuration g 3 c /\ listed c /\ stem g 3 /\ property g c = Some (Redundant 2) /\ nth_error c 2 = Some (FVertex 6) /\
  f_flow g (FVertex 6) = Some (FEdge 5 6) /\ c' = f_sort (lset c 2 (FEdge 5 6)) /\ configuration g 3 c' /\ property g c' = Some (Collapsible 1) /\ nth_error c' 1 = Some (FEdge 2 9).
Proof.
  destruct (H_graph 3) as [g|] eqn:E; [|vm_compute in E; discriminate E]. exists g, [FVertex 0; FEdge 2 9; FVertex 6], [FVertex 0; FEdge 2 9; FEdge 5 6].
  assert (HC : g_is_connected g = Some true) by (vm_compute in E; injection E as <-; vm_compute; reflexivity).
  destruct (H_arranged 3 g E HC) as (A & St). split; [exact A|]. vm_compute in E. injection E as Eg.
  split; [apply cellsb_spec; rewrite <- Eg; vm_compute; reflexivity|]. split; [repeat constructor|]. split; [exact St|]. rewrite <- Eg. split; [vm_compute; reflexivity|]. split; [reflexivity|]. split; [vm_compute; reflexivity|]. split; [reflexivity|].
  split; [apply cellsb_spec; vm_compute; reflexivity|]. split; [vm_compute; reflexivity|reflexivity].
Qed.
Print Assumptions C97_edge_refuted.

(** The hypotheses of the theorems above are met on the same graph. *)
Example C94_nontrivial : exists g, arranged g /\ g_n_vertices g = 11 /\ f_flow g (FVertex 9) = Some (FEdge 2 9) /\ is_blocked g [FEdge 1 2; FVertex 9] (FVertex 9) = Some true /\
  is_blocked g [FEdge 3 4; FVertex 9] (FVertex 9) = Some false /\ property g [FVertex 0; FVertex 1; FVertex 2] = Some Critical /\ property g [FVertex 0; FEdge 2 9; FVertex 3] = Some Critical /\
  property g [FVertex 0; FEdge 3 4; FVertex 9] = Some (Collapsible 1) /\ property g [FVertex 1; FEdge 3 4; FVertex 9] = Some (Redundant 0).
Proof.
  destruct (H_graph 3) as [g|] eqn:E; [|vm_compute in E; discriminate E]. exists g. assert (HC : g_is_connected g = Some true) by (vm_compute in E; injection E as <-; vm_compute; reflexivity).
  destruct (H_arranged 3 g E HC) as (A & St). split; [exact A|]. vm_compute in E. injection E as <-. vm_compute. repeat split.
Qed.
Example C95_nontrivial : exists g, arranged g /\ stem g 3 /\ points g [6; 8; 10] /\ flow_ord 34 g [FVertex 6; FVertex 8; FVertex 10] = Some [(1%Z, [FVertex 0; FVertex 1; FVertex 2])].
Proof.
  destruct (H_graph 3) as [g|] eqn:E; [|vm_compute in E; discriminate E]. exists g. assert (HC : g_is_connected g = Some true) by (vm_compute in E; injection E as <-; vm_compute; reflexivity).
  destruct (H_arranged 3 g E HC) as (A & St). split; [exact A|]. split; [exact St|]. vm_compute in E. injection E as <-. split; [|vm_compute; reflexivity].
  split; [repeat constructor; cbn; intuition lia|]. intros v Hv. cbn in Hv. unfold g_n_vertices. cbn. lia.
Qed.
Example C96_nontrivial : exists g r, arranged g /\ stem g 3 /\ configuration g 3 [FVertex 0; FEdge 2 9; FVertex 3] /\ get_edge_path 34 g [FVertex 0; FEdge 2 9; FVertex 3] = Some r /\
  r = [[(2, 9)]; [(1, 2)]; [(2, 3)]; [(9, 2)]; [(2, 1)]; [(3, 2)]] /\ evaluate 3 r = Some [0; 2; 1] /\
  get_edge_path_to_from_base_pt 34 g [FVertex 5; FVertex 9] true = Some [[(5, 4)]; [(4, 3)]; [(3, 2)]; [(2, 1)]; [(1, 0); (9, 2)]; [(2, 1)]].
Proof.
  destruct (H_graph 3) as [g|] eqn:E; [|vm_compute in E; discriminate E]. assert (HC : g_is_connected g = Some true) by (vm_compute in E; injection E as <-; vm_compute; reflexivity).
  exists g. destruct (H_arranged 3 g E HC) as (A & St). vm_compute in E. injection E as Eg. eexists. split; [exact A|]. split; [exact St|]. split; [apply cellsb_spec; rewrite <- Eg; vm_compute; reflexivity|]. rewrite <- Eg.
  split; [vm_compute; reflexivity|]. split; [reflexivity|]. split; vm_compute; reflexivity.
Qed.
Example C97_nontrivial : exists g c, arranged g /\ configuration g 3 c /\ listed c /\ free c 2 9 /\ property g c = Some (Redundant 1) /\ nth_error c 1 = Some (FVertex 9) /\ dimension c = 0 /\
  property g (f_sort (lset c 1 (FEdge 2 9))) = Some (Collapsible 1).
Proof.
  destruct (H_graph 3) as [g|] eqn:E; [|vm_compute in E; discriminate E]. assert (HC : g_is_connected g = Some true) by (vm_compute in E; injection E as <-; vm_compute; reflexivity).
  exists g, [FVertex 0; FVertex 9; FVertex 10]. destruct (H_arranged 3 g E HC) as (A & St). vm_compute in E. injection E as Eg. split; [exact A|]. split; [apply cellsb_spec; rewrite <- Eg; vm_compute; reflexivity|]. split; [repeat constructor|].
  split; [|rewrite <- Eg; vm_compute; repeat split]. intros f Hf N _. cbn in Hf. destruct Hf as [<-|[<-|[<-|[]]]]; [left|congruence|right]; intros v [<-|[]]; lia.
Qed.
