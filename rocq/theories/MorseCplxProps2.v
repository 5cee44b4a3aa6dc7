(** C99, C100: which critical cells are listed, and the boundary map of the complex of critical cells. *)
From Coq Require Import String List Arith ZArith Bool Lia Sorted Permutation.
From Verif Require Import PidModel SnfModel MatModel MatProofs LinModel GraphModel GraphSpec GraphProofs GraphProofs7 GraphProofs8 GraphProps LabGraphModel SubdivProps UtilModel
  CubeModel CubeSpec CubeProofs CubeProofs2 CubeProps CubePartialModel MorseModel MorseSpec MorseProofs MorseProofs4 MorseProps MorseCplxModel MorseCplxSpec MorseCplxProofs MorseCplxProofs2 MorseCplxProofs3 MorseCplxProofs4 MorseCplxProofs7 MorseCplxProofs8 MorseCplxProofs9 MorseCplxProofs10 MorseCplxProps.
Import ListNotations.
Open Scope nat_scope.
Open Scope list_scope.

Lemma opened es gr n sg upper c : graph_from es = Some gr -> subdivided_graph_from gr n = Some sg -> connected (g_n_vertices (sg_data sg)) (edge (sg_data sg)) -> 1 <= n -> morse_cplx gr n upper = Some c ->
  exists r, n = S r /\ spread (sg_data sg) n /\ exists labels F, NoDup labels /\ (forall f, In f labels <-> closed_cell (sg_data sg) f) /\
    (exists es, labels = map FVertex (seq 0 (g_n (sg_data sg))) ++ map (fun e : nat * nat => FEdge (fst e) (snd e)) es) /\ initS (sg_data sg) labels F /\ Inv (sg_data sg) n c (fst (enumS (sg_data sg) labels upper r [] F)) /\
    NoDup (fst (enumS (sg_data sg) labels upper r [] F)) /\ (forall p, In p (fst (enumS (sg_data sg) labels upper r [] F)) -> good (sg_data sg) p /\ List.length p = n).
Proof.
  intros E ES HC Hn EM. pose proof (subdivided_spread es gr n sg E ES HC) as HS. destruct n as [|r]; [lia|]. exists r. split; [reflexivity|]. split; [exact HS|].
  destruct (top_spec (sg_data sg) (S r) HS upper r eq_refl) as (c' & Ec & labels & F & ND & Hlab & Hord & HF & I). unfold morse_cplx in EM. rewrite ES in EM. cbn [obind] in EM. rewrite EM in Ec. injection Ec as <-. exists labels, F. repeat (split; [assumption|]).
  assert (G0 : good (sg_data sg) []) by (split; [constructor|]; split; [constructor|]; split; [constructor|]; intros x y []). assert (O0 : okS labels F) by (intros x y K _; now apply HF in K).
  split; [now apply enum_NoDup|]. intros p Hp. destruct (enum_good (sg_data sg) labels Hlab upper r [] F p G0 O0 Hp) as (G & l & L & ->). rewrite app_nil_r in *. auto.
Qed.
Lemma cells_in g n c ps d cells l : Inv g n c ps -> get_cells_of_dim c d = Some cells -> In l cells <-> In (rev l) ps /\ dimension l = d.
Proof.
  intros I EC. rewrite (cells_of c g n ps d I) in EC. injection EC as <-. rewrite in_map_iff. split.
  - intros (p & <- & Hp). apply filter_In in Hp as (Hp & D). apply Nat.eqb_eq in D. rewrite rev_involutive, dimension_rev. auto.
  - intros (H & D). exists (rev l). rewrite rev_involutive. split; [reflexivity|]. apply filter_In. split; [exact H|]. apply Nat.eqb_eq. now rewrite dimension_rev.
Qed.

(** C99: every critical cell with at most one edge is listed, and every critical cell consisting of edges only. *)
Theorem C99_complete_partial : forall es gr n sg upper c d cells l, graph_from es = Some gr -> subdivided_graph_from gr n = Some sg -> connected (g_n_vertices (sg_data sg)) (edge (sg_data sg)) -> 1 <= n ->
  morse_cplx gr n upper = Some c -> get_cells_of_dim c d = Some cells -> (d <= 1 /\ upper <> Some 0) \/ (d = n /\ forall u, upper = Some u -> n <= u) ->
  critical (sg_data sg) n l -> listed l -> dimension l = d -> In l cells.
Proof.
  intros es gr n sg upper c d cells l E ES HC Hn EM EC Hd HK HL HD. destruct (opened es gr n sg upper c E ES HC Hn EM) as (r & En & HS & labels & F & ND & Hlab & Hord & HF & I & _).
  apply (cells_in _ _ _ _ d cells l I EC). split; [|exact HD]. destruct Hd as [(D1 & U)|(-> & U)].
  - apply (complete_top (sg_data sg) n HS labels ND Hlab Hord upper l HK ltac:(lia) HL U r F En HF).
  - apply (edges_complete_top (sg_data sg) n HS labels Hlab upper l HK HD HL U r F En HF).
Qed.
Print Assumptions C99_complete_partial.
(** With at least two points and the leaves far enough from the vertices where critical edges start, the listed cells with at most one edge are critical. *)
Theorem C99_sound_partial : forall es gr n sg upper c d cells l, graph_from es = Some gr -> subdivided_graph_from gr n = Some sg -> connected (g_n_vertices (sg_data sg)) (edge (sg_data sg)) -> 2 <= n ->
  morse_cplx gr n upper = Some c -> get_cells_of_dim c d = Some cells -> roomy (sg_data sg) n -> d <= 1 -> In l cells -> critical (sg_data sg) n l.
Proof.
  intros es gr n sg upper c d cells l E ES HC Hn EM EC HR Hd Hl. assert (H1n : 1 <= n) by (clear -Hn; lia). destruct (opened es gr n sg upper c E ES HC H1n EM) as (r & En & HS & labels & F & ND & Hlab & Hord & HF & I & _).
  apply (cells_in _ _ _ _ d cells l I EC) in Hl as (Hl & HD). rewrite <- (rev_involutive l). apply (sound (sg_data sg) n HS labels Hlab upper r F _ En Hn HR HF Hl). rewrite dimension_rev. lia.
Qed.
Print Assumptions C99_sound_partial.
(** On trees the leaves are far enough: for a tree the listed cells with at most one edge are exactly the critical ones. *)
Theorem C99_tree_partial : forall es gr n sg upper c d cells l, graph_from es = Some gr -> subdivided_graph_from gr n = Some sg -> connected (g_n_vertices (sg_data sg)) (edge (sg_data sg)) -> 2 <= n ->
  (forall x y, x < y -> edge (sg_data sg) x y = true -> tree_edge (sg_data sg) x y) -> upper <> Some 0 ->
  morse_cplx gr n upper = Some c -> get_cells_of_dim c d = Some cells -> d <= 1 -> In l cells <-> critical (sg_data sg) n l /\ listed l /\ dimension l = d.
Proof.
  intros es gr n sg upper c d cells l E ES HC Hn HT HU EM EC Hd. split.
  - intros Hl. split; [apply (C99_sound_partial es gr n sg upper c d cells l E ES HC Hn EM EC (tree_roomy es gr n sg E ES HC HT) Hd Hl)|].
    destruct (C98_cells es gr n sg upper E ES HC ltac:(lia)) as (c' & cs & EM' & EC' & H & _). rewrite EM in EM'. injection EM' as <-. rewrite EC' in EC. injection EC as <-. destruct (H d) as (_ & K). destruct (K l Hl) as (_ & A & B & _). auto.
  - intros (A & B & C). apply (C99_complete_partial es gr n sg upper c d cells l E ES HC ltac:(lia) EM EC); auto.
Qed.
Print Assumptions C99_tree_partial.
(** For two points, on every connected graph and in every dimension, the listed cells are exactly the critical ones. *)
Theorem C102_two_points : forall es gr sg upper c d cells l, graph_from es = Some gr -> subdivided_graph_from gr 2 = Some sg -> connected (g_n_vertices (sg_data sg)) (edge (sg_data sg)) ->
  (forall u, upper = Some u -> 2 <= u) -> morse_cplx gr 2 upper = Some c -> get_cells_of_dim c d = Some cells ->
  In l cells <-> critical (sg_data sg) 2 l /\ listed l /\ dimension l = d.
Proof.
  intros es gr sg upper c d cells l E ES HC HU EM EC. assert (D2 : forall k, configuration (sg_data sg) 2 k -> dimension k <= 2) by (intros k (L & _); rewrite <- L; apply dimension_le). split.
  - intros Hl. destruct (C98_cells es gr 2 sg upper E ES HC ltac:(lia)) as (c' & cs & EM' & EC' & H & _). rewrite EM in EM'. injection EM' as <-. pose proof EC as EC2. rewrite EC' in EC2. injection EC2 as <-. destruct (H d) as (_ & K). destruct (K l Hl) as (A & B & C & _). split; [|auto].
    pose proof (D2 l A) as L2. destruct (Nat.le_gt_cases d 1) as [Ld|Ld].
    + apply (C99_sound_partial es gr 2 sg upper c d (cs d) l E ES HC ltac:(lia) EM EC); auto. apply roomy_two. lia.
    + assert (H12 : 1 <= 2) by (clear; lia). destruct (opened es gr 2 sg upper c E ES HC H12 EM) as (r & En & HS & labels & F & ND & Hlab & Hord & HF & I & _). injection En as <-. apply (cells_in _ _ _ _ d _ l I EC) in Hl as (Hl & HD). rewrite <- (rev_involutive l). apply (sound_two (sg_data sg) 2 HS labels Hlab upper F _ eq_refl HF Hl). rewrite dimension_rev. lia.
  - intros (A & B & C). pose proof (D2 l (proj1 A)) as L2. apply (C99_complete_partial es gr 2 sg upper c d cells l E ES HC ltac:(lia) EM EC); auto. destruct (Nat.le_gt_cases d 1) as [Ld|Ld]; [left|right].
    + split; [exact Ld|]. intros ->. specialize (HU 0 eq_refl). lia.
    + split; [lia|exact HU].
Qed.
Print Assumptions C102_two_points.
(** There is exactly one 0-cell: the points at the base point. *)
Theorem C103_base : forall es gr n sg upper c, graph_from es = Some gr -> subdivided_graph_from gr n = Some sg -> connected (g_n_vertices (sg_data sg)) (edge (sg_data sg)) -> 1 <= n -> upper <> Some 0 ->
  morse_cplx gr n upper = Some c -> get_cells_of_dim c 0 = Some [map FVertex (seq 0 n)].
Proof.
  intros es gr n sg upper c E ES HC Hn HU EM. destruct (opened es gr n sg upper c E ES HC Hn EM) as (r & En & HS & labels & F & ND & Hlab & Hord & HF & I & NDp & _).
  pose proof (cells_of c _ _ _ 0 I) as EC. rewrite EC. f_equal. clear Hord ND. set (cs := map (@rev factor) _) in *. destruct (base_critical (sg_data sg) n HS) as (B1 & B2 & B3). pose proof (C99_complete_partial es gr n sg upper c 0 cs (base_cell n) E ES HC Hn EM EC ltac:(left; split; [lia|exact HU]) B1 B3 B2) as Hb.
  assert (NDc : NoDup cs) by (apply FinFun.Injective_map_NoDup; [intros a b K; rewrite <- (rev_involutive a), K; apply rev_involutive|now apply NoDup_filter]).
  assert (AL : forall l, In l cs -> l = base_cell n). { intros l Hl. apply (cells_in _ _ _ _ 0 cs l I EC) in Hl as (Hl & HD). rewrite <- (rev_involutive l). apply (zero_cells (sg_data sg) n labels Hlab upper r F _ En HF Hl). now rewrite dimension_rev. }
  destruct cs as [|a [|b t]]; [contradiction|f_equal; apply AL; now left|]. exfalso. inversion NDc as [|? ? N1 _]. apply N1. left. rewrite (AL a (or_introl eq_refl)), (AL b (or_intror (or_introl eq_refl))). reflexivity.
Qed.
Print Assumptions C103_base.

(** C100: with a cell of dimension two or more [boundary_map] panics; *)
Theorem C104_panics : forall es gr n sg upper c fuel, graph_from es = Some gr -> subdivided_graph_from gr n = Some sg -> connected (g_n_vertices (sg_data sg)) (edge (sg_data sg)) -> 1 <= n ->
  morse_cplx gr n upper = Some c -> 2 <= c_dim c -> morse_boundary_map get_boundary_p fuel c = None.
Proof.
  intros es gr n sg upper c fuel E ES HC Hn EM Hd. destruct (opened es gr n sg upper c E ES HC Hn EM) as (r & En & HS & labels & F & ND & Hlab & Hord & HF & I & _ & HG). apply (map_none (sg_data sg) n c _ I HG fuel Hd).
Qed.
Print Assumptions C104_panics.
(** otherwise it returns zero matrices of the right sizes, with the cells. *)
Theorem C104_boundary_flat : forall es gr n sg upper c fuel, graph_from es = Some gr -> subdivided_graph_from gr n = Some sg -> connected (g_n_vertices (sg_data sg)) (edge (sg_data sg)) -> 1 <= n -> upper <> Some 0 ->
  morse_cplx gr n upper = Some c -> c_dim c <= 1 -> n * g_n_vertices (sg_data sg) < fuel ->
  exists bm, morse_boundary_map get_boundary_p fuel c = Some bm /\ List.length bm = c_dim c + 1 /\
    forall d M bs, nth_error bm d = Some (M, bs) -> get_cells_of_dim c d = Some bs /\ nr M = 1 /\ nc M = List.length bs /\ forall i j, i < 1 -> j < List.length bs -> mget M i j = Some 0%Z.
Proof.
  intros es gr n sg upper c fuel E ES HC Hn HU EM Hd Hf. pose proof (C103_base es gr n sg upper c E ES HC Hn HU EM) as HB. destruct (opened es gr n sg upper c E ES HC Hn EM) as (r & En & HS & labels & F & ND & Hlab & Hord & HF & I & _ & HG). set (ps := fst _) in *.
  rewrite (cells_of c _ _ _ 0 I) in HB. injection HB as HB. rewrite (map_flat (sg_data sg) n c ps (ar_sub es gr n sg E ES HC) (sp_stem _ _ HS) I HG fuel _ Hn Hd HB Hf). eexists. split; [reflexivity|]. split; [now rewrite map_length, seq_length|].
  intros d M bs K. rewrite nth_error_map in K. destruct (nth_error (seq 0 (c_dim c + 1)) d) as [k|] eqn:Ek; [|discriminate]. cbn [option_map] in K. assert (d < c_dim c + 1) by (rewrite <- (seq_length (c_dim c + 1) 0); apply nth_error_Some; congruence).
  rewrite nth_error_nth' with (d := 0) in Ek by (now rewrite seq_length). rewrite seq_nth in Ek by assumption. injection Ek as <-. injection K as <- <-. cbn [Nat.add]. split; [apply (cells_of c _ _ _ d I)|]. rewrite nr_mk, nc_mk. split; [reflexivity|]. split; [reflexivity|]. intros i j Hi Hj. now rewrite mget_in by lia.
Qed.
Print Assumptions C104_boundary_flat.

(** Concrete cases. *)
Definition treeb_all (g : rawg) : bool := forallb (fun x => forallb (fun y => implb (edge g x y && (x <? y)) (childb g x y)) (seq 0 (g_n g))) (seq 0 (g_n g)).
Lemma treeb_all_spec g : arranged g -> treeb_all g = true -> forall x y, x < y -> edge g x y = true -> tree_edge g x y.
Proof.
  intros Ar H x y L E. pose proof (arranged_AR g Ar) as HA. pose proof (edge_lt g x y (AR_GI g HA) E) as (Lx & Ly & _). unfold treeb_all in H. rewrite forallb_forall in H. specialize (H x ltac:(apply in_seq; lia)). rewrite forallb_forall in H. specialize (H y ltac:(apply in_seq; lia)).
  rewrite E, (proj2 (Nat.ltb_lt x y) L) in H. cbn in H. apply (te_child g HA). now apply (childb_iff g x y L).
Qed.
Example C99_tree_nontrivial : exists es gr sg c l cells, graph_from es = Some gr /\ subdivided_graph_from gr 3 = Some sg /\ connected (g_n_vertices (sg_data sg)) (edge (sg_data sg)) /\ (forall x y, x < y -> edge (sg_data sg) x y = true -> tree_edge (sg_data sg) x y) /\
  morse_cplx gr 3 None = Some c /\ get_cells_of_dim c 1 = Some cells /\ List.length cells = 6 /\ l = [FEdge 4 7; FVertex 5; FVertex 8] /\ In l cells /\ critical (sg_data sg) 3 l.
Proof.
  exists H_tree. destruct (both H_tree 3 None) as [(g & c)|] eqn:E; [|vm_compute in E; discriminate E].
  assert (HC : g_is_connected g = Some true) by (vm_compute in E; injection E as <- _; vm_compute; reflexivity). assert (HT : treeb_all g = true) by (vm_compute in E; injection E as <- _; vm_compute; reflexivity).
  destruct (both_spec _ _ _ _ _ E HC) as (gr & sg & E1 & E2 & Eg & C & Ar & EM). exists gr, sg, c, [FEdge 4 7; FVertex 5; FVertex 8]. rewrite Eg in C, Ar, HT. eexists. split; [exact E1|]. split; [exact E2|]. split; [exact C|]. pose proof (treeb_all_spec _ Ar HT) as TR. split; [exact TR|]. split; [exact EM|].
  assert (EC : get_cells_of_dim c 1 = Some [[FVertex 0; FEdge 4 7; FVertex 5]; [FVertex 0; FEdge 2 9; FVertex 3]; [FEdge 4 7; FVertex 5; FVertex 6]; [FEdge 4 7; FVertex 5; FVertex 8]; [FEdge 2 9; FVertex 3; FVertex 4]; [FEdge 2 9; FVertex 3; FVertex 10]]) by (vm_compute in E; injection E as _ <-; vm_compute; reflexivity).
  split; [exact EC|]. split; [reflexivity|]. split; [reflexivity|]. assert (IN : In [FEdge 4 7; FVertex 5; FVertex 8] [[FVertex 0; FEdge 4 7; FVertex 5]; [FVertex 0; FEdge 2 9; FVertex 3]; [FEdge 4 7; FVertex 5; FVertex 6]; [FEdge 4 7; FVertex 5; FVertex 8]; [FEdge 2 9; FVertex 3; FVertex 4]; [FEdge 2 9; FVertex 3; FVertex 10]]) by (cbn [In]; auto 10).
  split; [exact IN|]. apply (C99_tree_partial H_tree gr 3 sg None c 1 _ [FEdge 4 7; FVertex 5; FVertex 8] E1 E2 C ltac:(lia) TR ltac:(discriminate) EM EC ltac:(lia)). exact IN.
Qed.
Definition two_loops : list (string * string) := [("b","x"); ("x","s"); ("s","s"); ("x","x")]%string.
Example C99_two_nontrivial : exists gr sg c cells l, graph_from two_loops = Some gr /\ subdivided_graph_from gr 2 = Some sg /\ connected (g_n_vertices (sg_data sg)) (edge (sg_data sg)) /\ morse_cplx gr 2 None = Some c /\ get_cells_of_dim c 2 = Some cells /\
  In l cells /\ critical (sg_data sg) 2 l /\ dimension l = 2 /\ morse_boundary_map get_boundary_p 1000 c = None.
Proof.
  destruct (both two_loops 2 None) as [(g & c)|] eqn:E; [|vm_compute in E; discriminate E].
  assert (HC : g_is_connected g = Some true) by (vm_compute in E; injection E as <- _; vm_compute; reflexivity).
  destruct (both_spec _ _ _ _ _ E HC) as (gr & sg & E1 & E2 & Eg & C & Ar & EM). rewrite Eg in C. destruct (get_cells_of_dim c 2) as [[|l t]|] eqn:EC; [vm_compute in E; injection E as _ <-; vm_compute in EC; discriminate| |vm_compute in E; injection E as _ <-; vm_compute in EC; discriminate].
  exists gr, sg, c, (l :: t), l. split; [exact E1|]. split; [exact E2|]. split; [exact C|]. split; [exact EM|]. split; [exact EC|]. split; [now left|]. destruct (proj1 (C102_two_points two_loops gr sg None c 2 (l :: t) l E1 E2 C ltac:(discriminate) EM EC) (or_introl eq_refl)) as (K1 & _ & K2). split; [exact K1|]. split; [exact K2|].
  apply (C104_panics two_loops gr 2 sg None c 1000 E1 E2 C ltac:(lia) EM). clear -E. vm_compute in E. injection E as _ <-. vm_compute. lia.
Qed.
Example C100_boundary_nontrivial : exists gr sg c, graph_from H_tree = Some gr /\ subdivided_graph_from gr 2 = Some sg /\ connected (g_n_vertices (sg_data sg)) (edge (sg_data sg)) /\ morse_cplx gr 2 None = Some c /\ c_dim c = 1 /\ c_ranks c = [1; 2; 0] /\
  morse_boundary_map get_boundary_p 1000 c = Some [({| nr := 1; nc := 1; rws := [[0%Z]] |}, [[FVertex 0; FVertex 1]]); ({| nr := 1; nc := 2; rws := [[0%Z; 0%Z]] |}, [[FEdge 4 7; FVertex 5]; [FEdge 2 9; FVertex 3]])].
Proof.
  destruct (both H_tree 2 None) as [(g & c)|] eqn:E; [|vm_compute in E; discriminate E].
  assert (HC : g_is_connected g = Some true) by (vm_compute in E; injection E as <- _; vm_compute; reflexivity).
  destruct (both_spec _ _ _ _ _ E HC) as (gr & sg & E1 & E2 & Eg & C & Ar & EM). rewrite Eg in C. exists gr, sg, c. split; [exact E1|]. split; [exact E2|]. split; [exact C|]. split; [exact EM|]. clear -E. vm_compute in E. injection E as _ <-. vm_compute. repeat split.
Qed.
(** One point on a tree: the listed 1-cell is not critical, and the alternating sum of the ranks is 0 although the tree is contractible. *)
Theorem C99_one_point_refuted : exists es gr sg c l, graph_from es = Some gr /\ subdivided_graph_from gr 1 = Some sg /\ connected (g_n_vertices (sg_data sg)) (edge (sg_data sg)) /\ (forall x y, x < y -> edge (sg_data sg) x y = true -> tree_edge (sg_data sg) x y) /\
  morse_cplx gr 1 None = Some c /\ get_cells_of_dim c 1 = Some [l] /\ ~ critical (sg_data sg) 1 l /\ c_ranks c = [1; 1].
Proof.
  exists [("a","x"); ("x","b"); ("x","c")]%string. destruct (both [("a","x"); ("x","b"); ("x","c")]%string 1 None) as [(g & c)|] eqn:E; [|vm_compute in E; discriminate E].
  assert (HC : g_is_connected g = Some true) by (vm_compute in E; injection E as <- _; vm_compute; reflexivity). assert (HT : treeb_all g = true) by (vm_compute in E; injection E as <- _; vm_compute; reflexivity).
  assert (HP : property g [FEdge 2 5] = Some (MorseModel.Collapsible 0)) by (vm_compute in E; injection E as <- _; vm_compute; reflexivity).
  destruct (both_spec _ _ _ _ _ E HC) as (gr & sg & E1 & E2 & Eg & C & Ar & EM). rewrite Eg in C, Ar, HT, HP. exists gr, sg, c, [FEdge 2 5]. split; [exact E1|]. split; [exact E2|]. split; [exact C|]. split; [now apply treeb_all_spec|]. split; [exact EM|].
  split; [clear -E; vm_compute in E; injection E as _ <-; vm_compute; reflexivity|]. split; [|clear -E; vm_compute in E; injection E as _ <-; vm_compute; reflexivity].
  intros (Cf & K). apply (C94_property _ _ Ar (proj1 (proj2 Cf))) in K. congruence.
Qed.
Print Assumptions C99_one_point_refuted.
