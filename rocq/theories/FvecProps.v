(** C136: the numbers of cells of a configuration complex. *)
From Coq Require Import List Arith ZArith Bool Lia ZifyBool ZifyNat Permutation Sorted String.
From Verif Require Import UtilModel PidModel MatModel MatSpec MatProofs GraphModel GraphSpec GraphProofs GraphProofs5 GraphProofs8 GraphProps LabGraphModel LabGraphSpec LabGraphProofs LabGraphProofs2 LabGraphProps SubdivSpec SubdivProofs SubdivProofs2 SubdivProps CubeModel CubeSpec CubeProofs CubeProofs2 CubeProofs3 CubeProps CubeProofs4 CubeProofs5 CubePartialModel CubeProofs6 CubeProofs7.
From Verif Require Import GalSpec GalProofs GalProofs2 GalProofs3 GalProofs4 GalProofs5 GalProps GalProps2 FvecSpec FvecProofs.
Import ListNotations.
Open Scope nat_scope.

Lemma cells_cellof g n c k : enumerates g n c -> cells_of_dim c k = filter (fun l => dimension l =? k) (map (cellof c) (c_final c)).
Proof.
  intros HE. unfold cells_of_dim. f_equal. assert (H : forall i, In i (c_final c) -> get_cell_from_idx c i = Some (Some (cellof c i))) by (intros i Hi; apply (F_cell g n c HE i Hi)).
  revert H. generalize (c_final c) as l. induction l as [|i l IH]; intros H; [reflexivity|]. cbn [flat_map map]. rewrite (H i (or_introl eq_refl)). cbn [app]. f_equal. apply IH. intros j Hj. apply H. now right.
Qed.
Lemma ranks_cells g n c k : enumerates g n c -> nth_error (c_ranks c) k = if k <=? n then Some (List.length (cells_of_dim c k)) else None.
Proof.
  intros HE. rewrite (ranks_rk g n c HE k). destruct (k <=? n); [|reflexivity]. f_equal. rewrite (cells_cellof g n c k HE). unfold rk, Lk.
  assert (H : forall i, In i (c_final c) -> dimo c i = dimension (cellof c i)) by (intros i Hi; apply (F_cell g n c HE i Hi)).
  revert H. generalize (c_final c) as l. induction l as [|i l IH]; intros H; [reflexivity|]. cbn [filter map]. rewrite (H i (or_introl eq_refl)). destruct (dimension (cellof c i) =? k); cbn [List.length]; [f_equal|]; apply IH; intros j Hj; apply H; now right.
Qed.

(** C136.  A [k]-cell of the complex of [n] points is a set of [k] pairwise disjoint edges of the subdivided graph and [n - k] of the other
    vertices: the complex has (number of such sets of edges) * binom (V - 2 k) (n - k) cells of dimension [k], and none above [n]. *)
Theorem C136_cell_counts : forall es gr n sg c, graph_from es = Some gr -> subdivided_graph_from gr n = Some sg -> connected (g_n_vertices (sg_data sg)) (edge (sg_data sg)) -> 1 <= n -> udc gr n = Some c ->
  (forall k, k <= n -> List.length (cells_of_dim c k) = n_matchings (sg_data sg) k * binom (g_n_vertices (sg_data sg) - 2 * k) (n - k)) /\
  forall k, nth_error (c_ranks c) k = if k <=? n then Some (List.length (cells_of_dim c k)) else None.
Proof.
  intros es gr n sg c E ES HC Hn EU. destruct (C56_udc es gr n sg E ES HC Hn) as (c' & EU' & HE). rewrite EU in EU'. injection EU' as <-.
  destruct (sub_made gr n sg es E ES) as (g & p & HG & ET). pose proof (maximal_tree_spec g HG) as HM. rewrite ET in HM. destruct HM as (_ & R & _). pose proof (GraphProofs5.L_GI _ _ _ R) as HGs.
  split.
  - intros k Hk. rewrite (cells_cellof _ _ _ k HE). apply main_count; [exact HE| |exact Hk]. intros x y Exy. destruct (edge_lt _ x y HGs Exy) as (Hx & Hy & _). unfold g_n_vertices. lia.
  - intros k. now apply (ranks_cells (sg_data sg) n).
Qed.
Print Assumptions C136_cell_counts.

Lemma choose_1 {A} (l : list A) : choose 1 l = map (fun x => [x]) l.
Proof. induction l as [|x l IH]; [reflexivity|]. change (choose 1 (x :: l)) with (map (cons x) (choose 0 l) ++ choose 1 l). rewrite IH. now destruct l. Qed.
Lemma matchings_1 g : n_matchings g 1 = List.length (graph_edges g).
Proof. unfold n_matchings. rewrite choose_1. generalize (graph_edges g) as l. induction l as [|x l IH]; [reflexivity|]. cbn. now rewrite IH. Qed.
Lemma matchings_0 g : n_matchings g 0 = 1.
Proof. unfold n_matchings. destruct (graph_edges g); reflexivity. Qed.

Lemma key_edges_len labels m q : 2 <= m -> List.length (key_edges labels m q) = S (List.length (key_vertices labels m q)).
Proof.
  intros Hm. destruct q as [[i j] k]. unfold key_edges, key_vertices, chain_edges, chain_vertices. cbn [List.length]. rewrite app_length, !map_length, !seq_length. cbn [List.length].
  destruct (i =? j); lia.
Qed.
Lemma sub_edges_len labels m ks : 2 <= m -> List.length (flat_map (key_edges labels m) ks) = List.length (flat_map (key_vertices labels m) ks) + List.length ks.
Proof. intros Hm. induction ks as [|q ks IH]; [reflexivity|]. cbn [flat_map List.length]. rewrite !app_length, key_edges_len by exact Hm. lia. Qed.

(** The number of edges of the subdivided graph: one more than the number of inner vertices on each of the given edges. *)
Theorem C136_edges : forall es gr n sg, graph_from es = Some gr -> subdivided_graph_from gr n = Some sg ->
  List.length (graph_edges (sg_data sg)) + lg_n_vertices gr = g_n_vertices (sg_data sg) + List.length es.
Proof.
  intros es gr n sg E ES. destruct (C66_subdivision es gr n sg E ES) as (HD & _ & HL & HV & _). set (m := Nat.max n 2) in *. assert (Hm : 2 <= m) by lia.
  destruct (sub_made gr n sg es E ES) as (g & p & HG & ET). pose proof (maximal_tree_spec g HG) as HM. rewrite ET in HM. destruct HM as (_ & R & _). pose proof (GraphProofs5.L_GI _ _ _ R) as HGs.
  set (EE := flat_map (key_edges (registered es) m) (keys es)). set (pos := fun u => idx u (sg_list sg)).
  pose proof (sub_cells es m Hm (sg_list sg) (sg_data sg) HGs HD HL) as SC. pose proof (sub_simple es m Hm (sg_list sg) (sg_data sg) HD HL) as SS.
  assert (PE : Permutation (map (fun e => fe pos (fst e) (snd e)) EE) (map (fun e => FEdge (fst e) (snd e)) (graph_edges (sg_data sg)))).
  { apply NoDup_Permutation.
    - fold EE in SS. unfold simpleE in SS. clear -SS. induction SS as [|e l F SS IH]; cbn [map]; constructor; [|exact IH]. intros K. apply in_map_iff in K as (e' & Q & He'). rewrite Forall_forall in F. apply (F e' He'). symmetry. exact Q.
    - apply FinFun.Injective_map_NoDup; [intros [a b] [a' b'] Q; cbn in Q; now injection Q as -> ->|apply graph_edges_NoDup].
    - intros f. split.
      + intros Hf. apply in_map_iff in Hf as ([a b] & <- & Hab). cbn [fst snd]. assert (CO : closed_cell (sg_data sg) (fe pos a b)) by (apply SC; right; exists a, b; auto).
        unfold fe in *. cbn [closed_cell] in CO. apply in_map_iff. eexists (_, _). split; [reflexivity|]. apply graph_edges_in. destruct CO as [C1 C2]. split; [exact C1|]. split; [|exact C2]. destruct (edge_lt _ _ _ HGs C2) as (_ & Hy & _). exact Hy.
      + intros Hf. apply in_map_iff in Hf as ([x y] & <- & Hxy). cbn [fst snd]. apply graph_edges_in in Hxy. destruct Hxy as (H1 & _ & H3). assert (CO : closed_cell (sg_data sg) (FEdge x y)) by (split; assumption).
        apply SC in CO. destruct CO as [(v & _ & _ & Q)|(a & b & Hab & _ & _ & Q)]; [discriminate|]. apply in_map_iff. exists (a, b). split; [symmetry; exact Q|exact Hab]. }
  apply Permutation_length in PE. rewrite !map_length in PE. rewrite <- PE. unfold EE. rewrite (sub_edges_len _ m _ Hm), (keys_length es m n eq_refl), HV. rewrite count_keys. lia.
Qed.
Print Assumptions C136_edges.

(** The points and the edges of the complex in terms of the given graph: [v] vertices, [a] edges between different vertices, [l] loops. *)
Theorem C136_low_dimensions : forall es gr n sg c, graph_from es = Some gr -> subdivided_graph_from gr n = Some sg -> connected (g_n_vertices (sg_data sg)) (edge (sg_data sg)) -> 2 <= n -> udc gr n = Some c ->
  let v := List.length (graph_vertices es) in let a := List.length (non_loops es) in let l := List.length (loops es) in
  let V := v + a * Nat.max (n - 2) 1 + l * n in
  List.length (cells_of_dim c 0) = binom V n /\ List.length (cells_of_dim c 1) = (a * (Nat.max (n - 2) 1 + 1) + l * (n + 1)) * binom (V - 2) (n - 1).
Proof.
  intros es gr n sg c E ES HC Hn EU v a l V. destruct (C136_cell_counts es gr n sg c E ES HC ltac:(lia) EU) as [H _]. pose proof (C136_edges es gr n sg E ES) as HE.
  destruct (C66_subdivision es gr n sg E ES) as (_ & _ & _ & HV & _). replace (Nat.max n 2) with n in HV by lia.
  destruct (C50_from es gr E) as (ND & HI & LV & _ & L1 & L2 & L3).
  assert (Ev : lg_n_vertices gr = v).
  { rewrite LV. apply Permutation_length. apply NoDup_Permutation; [exact ND|apply NoDup_nodup|]. intros x. rewrite HI. unfold graph_vertices. rewrite nodup_In, in_flat_map. unfold mentions. split.
    - intros (e & He & K). exists e. split; [exact He|]. cbn. destruct K as [K|K]; auto.
    - intros (e & He & [K|[K|[]]]); exists e; auto. }
  assert (EV : g_n_vertices (sg_data sg) = V) by (rewrite HV; unfold V, a, l; lia).
  split.
  - rewrite (H 0 ltac:(lia)), matchings_0, EV, Nat.mul_1_l, Nat.sub_0_r. f_equal. lia.
  - rewrite (H 1 ltac:(lia)), matchings_1, EV. change (2 * 1) with 2. f_equal. assert (List.length es = a + l) by (unfold a, l; lia). unfold V in EV. lia.
Qed.
Print Assumptions C136_low_dimensions.

(** Three points on a segment with a loop at one end: 6 vertices and 6 edges after the subdivision; 20 = binom 6 3, 36 = 6 * binom 4 2, 16 = 8 * binom 2 1, 2 = 2 * 1. *)
Example C136_nontrivial : exists gr sg c, graph_from lollipop = Some gr /\ subdivided_graph_from gr 3 = Some sg /\ connected (g_n_vertices (sg_data sg)) (edge (sg_data sg)) /\ udc gr 3 = Some c /\
  c_ranks c = [20; 36; 16; 2] /\ g_n_vertices (sg_data sg) = 6 /\ map (n_matchings (sg_data sg)) [0; 1; 2; 3] = [1; 6; 8; 2] /\ map (fun k => binom (6 - 2 * k) (3 - k)) [0; 1; 2; 3] = [20; 6; 2; 1].
Proof.
  destruct C126_nontrivial as (gr & sg & c & E & ES & C & EU & R & _). exists gr, sg, c. repeat (split; [assumption|]).
  assert (K : (do gr <- graph_from lollipop; do sg <- subdivided_graph_from gr 3; Some (g_n_vertices (sg_data sg), map (n_matchings (sg_data sg)) [0; 1; 2; 3])) = Some (6, [1; 6; 8; 2])) by (vm_compute; reflexivity).
  rewrite E in K. cbn [obind] in K. rewrite ES in K. cbn [obind] in K. apply f_equal with (f := fun o => match o with Some q => q | None => (0, []) end) in K. split; [exact (f_equal fst K)|]. split; [exact (f_equal snd K)|reflexivity].
Qed.
