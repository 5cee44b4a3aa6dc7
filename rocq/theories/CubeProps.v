(** C56: the cells of the discretised unordered configuration space. *)
From Coq Require Import List Arith ZArith NArith Bool Lia ZifyBool ZifyNat ZifyN Permutation Sorted String.
From Verif Require Import UtilModel PidModel MatModel MatSpec MatProofs GraphModel GraphSpec GraphProofs GraphProofs2 GraphProofs8 GraphProps LabGraphModel LabGraphSpec LabGraphProps SubdivSpec SubdivProofs2 SubdivProps CubeModel CubeSpec CubeProofs CubeProofs2 CubeProofs3.
Import ListNotations.
Open Scope nat_scope.

Lemma branch_configuration g fs r q : (forall f, In f fs <-> closed_cell g f) ->
  (List.length q = S r /\ branch_ok fs q) <-> (configuration g (S r) (rev q) /\ listed (rev q)).
Proof.
  intros H. unfold branch_ok, configuration. rewrite rev_length.
  assert (F : forall l, Forall (fun f => In f fs) l <-> Forall (closed_cell g) l) by (intros l; rewrite !Forall_forall; split; intros K x Hx; apply H; auto).
  split.
  - intros (A & B & C & D). repeat split; auto; [apply Forall_rev, F, B|now apply pd_rev].
  - intros ((A & B & C) & D). split; [exact A|]. split; [|split; [|exact D]]; [rewrite <- (rev_involutive q); apply Forall_rev, F, B|rewrite <- (rev_involutive q); now apply pd_rev].
Qed.
(** What [udc] builds on a graph in which vertices 0 and 1 are adjacent (always the case for the subdivision of a connected graph):
    the complete branches are exactly the sets of [n] pairwise disjoint closed cells, each set once, listed by increasing first vertex;
    the ranks and the dimension are those of these sets; [get_index_of] finds them and nothing else. *)
Definition enumerates (g : rawg) (n : nat) (c : cplx) : Prop :=
  NoDup (c_final c) /\
  (forall i, In i (c_final c) -> exists l, get_cell_from_idx c i = Some (Some l) /\ configuration g n l /\ listed l /\ dim_of c i = Some (dimension l)) /\
  (forall l, configuration g n l -> exists i l', In i (c_final c) /\ get_cell_from_idx c i = Some (Some l') /\ Permutation l l' /\
     forall j l2, In j (c_final c) -> get_cell_from_idx c j = Some (Some l2) -> Permutation l l2 -> j = i) /\
  (forall l, configuration g n l -> listed l -> exists i, get_index_of c l = Some (Some i) /\ get_cell_from_idx c i = Some (Some l)) /\
  (forall l, List.length l = n -> ~ (configuration g n l /\ listed l) -> get_index_of c l = Some None) /\
  (forall k, nth_error (c_ranks c) k = if k <=? n then Some (List.length (filter (fun i => match dim_of c i with Some d => d =? k | None => false end) (c_final c))) else None) /\
  (forall i d, In i (c_final c) -> dim_of c i = Some d -> d <= c_dim c) /\
  (c_final c <> [] -> exists i, In i (c_final c) /\ dim_of c i = Some (c_dim c)).

Lemma udc_enumerates g fs r c : factors g = Some fs -> NoDup fs -> (forall f, In f fs <-> closed_cell g f) -> (forall f, In f fs -> match f with FVertex v => v < g_n g | FEdge x y => x < y /\ y < g_n g end) ->
  r <= g_n g -> udc_data g fs r c -> enumerates g (S r) c.
Proof.
  intros Hfs ND HI HN Hr HD. pose proof (fun q => iff_trans (all_branches_in (g_n g) fs HN r q) (branch_configuration g fs r q HI)) as AB.
  pose proof HD as (Inv0 & _). pose proof (I_final _ _ _ _ Inv0) as F2.
  assert (CELL : forall i, In i (c_final c) -> exists p, up (c_data c) i p /\ In p (all_branches (g_n g) fs r) /\ get_cell_from_idx c i = Some (Some (rev p))) by (intros i; apply (get_cell_spec g fs r c i HD)).
  assert (IDX : forall l, configuration g (S r) l -> listed l -> exists i, get_index_of c l = Some (Some i) /\ up (c_data c) i (rev l) /\ In i (c_final c)).
  { intros l Hl Sl. apply (get_index_spec g fs HN r Hr c l HD); [apply Hl|]. apply AB. rewrite rev_involutive. auto. }
  assert (SORT : forall l, configuration g (S r) l -> configuration g (S r) (f_sort l) /\ listed (f_sort l)).
  { intros l (A & B & C). split; [|now apply f_sort_listed]. pose proof (f_sort_perm l) as P. split; [rewrite (Permutation_length P); exact A|]. split; [now apply (Permutation_Forall (Permutation_sym P))|now apply f_sort_pd]. }
  split; [now apply (final_NoDup g fs r)|]. split; [|split; [|split; [|split; [|split; [|split]]]]].
  - intros i Hi. destruct (CELL i Hi) as (p & U & HP & E). exists (rev p). apply AB in HP. destruct HP. split; [exact E|]. split; [assumption|]. split; [assumption|].
    rewrite (dim_of_up c i p U). f_equal. apply dimension_perm, Permutation_rev.
  - intros l Hl. destruct (SORT l Hl) as [C1 C2]. destruct (IDX _ C1 C2) as (i & E & U & Hi). exists i, (f_sort l). split; [exact Hi|]. destruct (CELL i Hi) as (p & U' & HP & E'). pose proof (up_fun _ _ _ _ U U') as Ep. subst p. rewrite rev_involutive in E'. split; [exact E'|]. split; [symmetry; apply f_sort_perm|].
    intros j l2 Hj Ej P2. destruct (CELL j Hj) as (p & Uj & HPj & Ej'). rewrite Ej in Ej'. injection Ej' as ->. apply AB in HPj. destruct HPj as [_ Lp].
    assert (K : rev p = f_sort l). { apply listed_unique; [exact Lp|exact C2|]. rewrite <- P2. symmetry. apply f_sort_perm. }
    apply (final_inj g fs r ND c j i p HD Hj Hi Uj). now rewrite <- (rev_involutive p), K.
  - intros l Hl Sl. destruct (IDX l Hl Sl) as (i & E & U & Hi). exists i. split; [exact E|]. destruct (CELL i Hi) as (p & U' & HP & E'). rewrite <- (up_fun _ _ _ _ U U'), rev_involutive in E'. exact E'.
  - intros l Hl HC. apply (get_index_spec g fs HN r Hr c l HD Hl). intros K. apply AB in K. rewrite rev_involutive in K. contradiction.
  - intros k. rewrite (I_ranks _ _ _ _ Inv0). destruct (Nat.leb_spec k (S r)) as [K|K]; [|apply nth_error_None; rewrite map_length, seq_length; lia].
    rewrite nth_error_map, nth_error_nth' with (d := 0) by (rewrite seq_length; lia). rewrite seq_nth by lia. cbn [option_map Nat.add]. f_equal. unfold count. clear -F2.
    induction F2 as [|i p is ps H F2 IH]; [reflexivity|]. cbn [filter]. rewrite (dim_of_up _ _ _ H). destruct (dimension p =? k); cbn [List.length]; now rewrite IH.
  - intros i d Hi Hd. rewrite (I_dim _ _ _ _ Inv0). destruct (CELL i Hi) as (p & U & HP & _). rewrite (dim_of_up _ _ _ U) in Hd. injection Hd as <-. unfold top_dim.
    pose proof (proj1 (list_max_le (map dimension (all_branches (g_n g) fs r)) _) (Nat.le_refl _)) as LM. rewrite Forall_forall in LM. apply LM. now apply in_map.
  - intros Hne. rewrite (I_dim _ _ _ _ Inv0). unfold top_dim.
    assert (G : forall is ps, is <> [] -> Forall2 (up (c_data c)) is ps -> exists i, In i is /\ dim_of c i = Some (list_max (map dimension ps))).
    { intros is ps Hn F. clear -Hn F. induction F as [|i p is ps H F IH]; [congruence|]. cbn [map]. change (list_max (dimension p :: map dimension ps)) with (Nat.max (dimension p) (list_max (map dimension ps))).
      destruct (Nat.max_spec (dimension p) (list_max (map dimension ps))) as [[M1 M2]|[M1 M2]]; rewrite M2.
      - destruct is as [|i' is']; [inversion F; subst; cbn in M1; lia|]. destruct IH as (j & Hj & Ej); [discriminate|]. exists j. split; [now right|exact Ej].
      - exists i. split; [now left|]. now apply dim_of_up. }
    now apply G.
Qed.

Theorem C56_cells_enumerated : forall g n, made g -> edge g 0 1 = true -> 1 <= n <= g_n_vertices g + 1 ->
  exists c, udc_of g n = Some c /\ enumerates g n c.
Proof.
  intros g n Mg E01 Hn. pose proof (made_GI g Mg) as HG. destruct (edge_lt g 0 1 HG E01) as (_ & HN & _). destruct (factors_spec g HG ltac:(lia)) as (fs & Hfs & ND & HI & HB). unfold g_n_vertices in *. destruct n as [|r]; [lia|].
  destruct (udc_of_data g fs Hfs HB r ltac:(lia) ltac:(lia)) as (c & E & HD). exists c. split; [exact E|]. apply (udc_enumerates g fs r); auto; [|lia].
  intros f. rewrite HI. split; [|auto]. intros [H| ->]; [exact H|]. cbn. split; [lia|exact E01].
Qed.
Print Assumptions C56_cells_enumerated.
(** Otherwise the pair (0, 1) is treated as an edge all the same. *)
Theorem C56_refuted_phantom_edge : forall g n, made g -> 2 <= g_n_vertices g -> edge g 0 1 = false -> 1 <= n <= g_n_vertices g + 1 -> forall l, listed l -> List.length l = n -> ForallOrdPairs disjoint l ->
  Forall (fun f => closed_cell g f \/ f = FEdge 0 1) l ->
  exists c i, udc_of g n = Some c /\ In i (c_final c) /\ get_cell_from_idx c i = Some (Some l).
Proof.
  intros g n Mg H2 E01 Hn l Ll Hl Dl Fl. pose proof (made_GI g Mg) as HG. destruct (factors_spec g HG H2) as (fs & Hfs & ND & HI & HB). unfold g_n_vertices in *. destruct n as [|r]; [lia|].
  destruct (udc_of_data g fs Hfs HB r ltac:(lia) ltac:(lia)) as (c & E & HD). exists c.
  destruct (proj1 (get_index_spec g fs HB r ltac:(lia) c l HD Hl)) as (i & Ei & U & Hi).
  - apply all_branches_in; [exact HB|]. rewrite rev_length. split; [exact Hl|]. split; [|split; [now apply pd_rev|now rewrite rev_involutive]]. apply Forall_rev. rewrite Forall_forall in *. intros f Hf. apply HI. auto.
  - exists i. split; [exact E|]. split; [exact Hi|]. destruct (proj1 (get_cell_spec g fs r c i HD) Hi) as (p & U' & HP & E'). rewrite E'. now rewrite <- (up_fun _ _ _ _ U U'), rev_involutive.
Qed.
Print Assumptions C56_refuted_phantom_edge.
(** The panics. *)
Theorem C56_panics : forall g n, made g -> (udc_of g n = None <-> g_n_vertices g < 2 \/ n = 0 \/ g_n_vertices g + 1 < n).
Proof.
  intros g n Mg. pose proof (made_GI g Mg) as HG. unfold g_n_vertices. destruct (Nat.lt_ge_cases (g_n g) 2) as [H2|H2]; [unfold udc_of; rewrite (proj2 (Nat.ltb_lt _ _)) by exact H2; tauto|].
  destruct n as [|r]; [unfold udc_of; rewrite (proj2 (Nat.ltb_ge _ _)) by exact H2; tauto|].
  destruct (Nat.lt_ge_cases (g_n g) r) as [Hr|Hr].
  - unfold udc_of. rewrite (proj2 (Nat.ltb_ge _ _)) by exact H2. unfold boundary_vertex. rewrite (proj2 (Nat.leb_gt _ _)) by exact Hr. cbn. split; [intros _; right; right; lia|reflexivity].
  - destruct (factors_spec g HG H2) as (fs & Hfs & ND & HI & HB). destruct (udc_of_data g fs Hfs HB r Hr H2) as (c & E & _). rewrite E. split; [discriminate|lia].
Qed.
Print Assumptions C56_panics.
(** [udc] itself: the configuration space of the subdivided graph. *)
Lemma sub_made gr n sg es : graph_from es = Some gr -> subdivided_graph_from gr n = Some sg -> exists g p, GI g /\ choose_maximal_tree g = Some (sg_data sg, p).
Proof.
  intros E ES. pose proof (from_nil_not _ _ _ _ E ES) as Hes. pose proof (sub_spec es gr n E Hes) as HS. cbn zeta in HS. destruct HS as (g & HG & HN & HN2 & D & HT).
  exists g. destruct (choose_maximal_tree g) as [[h p]|]; [|congruence]. destruct HT as (L & EL & _). rewrite EL in ES. injection ES as <-. exists p. auto.
Qed.
Lemma sub_size es gr n sg : graph_from es = Some gr -> subdivided_graph_from gr n = Some sg -> Nat.max n 2 <= g_n_vertices (sg_data sg).
Proof.
  intros E ES. destruct (C66_subdivision es gr n sg E ES) as (_ & _ & _ & HV & _). cbn zeta in HV. rewrite HV. pose proof (from_nil_not _ _ _ _ E ES) as Hes. destruct (C50_from es gr E) as (NDl & Hl & HL & _ & _ & _ & SP). rewrite HL.
  destruct es as [|[a b] es']; [congruence|]. set (es := (a, b) :: es') in *.
  assert (Ha : In a (lg_labels gr)) by (apply Hl; exists (a, b); split; [now left|now left]). assert (Hb : In b (lg_labels gr)) by (apply Hl; exists (a, b); split; [now left|now right]).
  assert (H1 : 1 <= List.length (lg_labels gr)) by (destruct (lg_labels gr); [destruct Ha|cbn; lia]).
  destruct (string_dec a b) as [Eab|Nab].
  - assert (H2 : 1 <= List.length (loops es)). { unfold es, loops. cbn [filter]; unfold is_loop at 1; cbn [fst snd]. rewrite (proj2 (String.eqb_eq a b) Eab). cbn. lia. } nia.
  - assert (H2 : 1 <= List.length (non_loops es)). { unfold es, non_loops. cbn [filter]; unfold is_loop at 1; cbn [fst snd]. rewrite (proj2 (String.eqb_neq a b) Nab). cbn. lia. }
    assert (H3 : 2 <= List.length (lg_labels gr)). { apply (NoDup_incl_length (l := [a; b])); [constructor; [intros [K|[]]; congruence|constructor; [auto|constructor]]|]. intros x [<-|[<-|[]]]; assumption. } nia.
Qed.
Theorem C56_udc : forall es gr n sg, graph_from es = Some gr -> subdivided_graph_from gr n = Some sg -> connected (g_n_vertices (sg_data sg)) (edge (sg_data sg)) -> 1 <= n ->
  exists c, udc gr n = Some c /\ enumerates (sg_data sg) n c.
Proof.
  intros es gr n sg E ES HC Hn. unfold udc. rewrite ES. cbn [obind]. destruct (sub_made gr n sg es E ES) as (g & p & HG & ET). pose proof (maximal_tree_spec g HG) as HM. rewrite ET in HM. destruct HM as (_ & R & TT & _). pose proof (GraphProofs5.L_GI _ _ _ R) as HGs.
  destruct (C66_subdivision es gr n sg E ES) as (_ & _ & _ & _ & HT). cbn zeta in *. specialize (HT HC). pose proof (sub_size es gr n sg E ES) as HV. unfold g_n_vertices in *. destruct (HT 1 ltac:(lia)) as (i & Ti & Hi & _).
  assert (i = 0) by lia. subst i. apply tree_edge_child in Ti; [|exact HGs|exact TT]. destruct Ti as (_ & E01 & _).
  destruct (factors_spec (sg_data sg) HGs ltac:(lia)) as (fs & Hfs & ND & HI & HB). destruct n as [|r]; [lia|]. destruct (udc_of_data (sg_data sg) fs Hfs HB r ltac:(lia) ltac:(lia)) as (c & Ec & HD). exists c. split; [exact Ec|].
  apply (udc_enumerates (sg_data sg) fs r); auto; [|lia]. intros f. rewrite HI. split; [|auto]. intros [H| ->]; [exact H|]. cbn. split; [lia|exact E01].
Qed.
Print Assumptions C56_udc.
Open Scope string_scope.
Example C56_nontrivial : exists gr sg c, graph_from [("v0","v1"); ("v1","v1")] = Some gr /\ subdivided_graph_from gr 3 = Some sg /\ udc gr 3 = Some c /\
  c_ranks c = [20; 36; 16; 2] /\ c_dim c = 3 /\ n_cells c = 74 /\ g_n_vertices (sg_data sg) = 6 /\
  c_contains c [FVertex 0; FEdge 1 2; FVertex 4] = Some true /\ c_contains c [FEdge 0 1; FVertex 1; FVertex 4] = Some false.
Proof. do 3 eexists. split; [vm_compute; reflexivity|]. split; [vm_compute; reflexivity|]. split; [vm_compute; reflexivity|]. vm_compute. repeat split; reflexivity. Qed.
Close Scope string_scope.
