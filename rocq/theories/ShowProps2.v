(** C128: printed cell complexes. *)
From Coq Require Import String Ascii List ZArith Bool Lia Permutation Sorted.
From Verif Require Import PidModel MatModel UtilModel GraphModel GraphSpec GraphProps LabGraphModel LabGraphProofs2 SubdivProps CubeModel CubeSpec CubeProofs CubeProofs2 CubeProofs7 CubeProps CubeProps2 MorseModel MorseSpec MorseProps
  MorseCplxModel MorseCplxSpec MorseCplxProofs4 MorseCplxProofs3 MorseCplxProps MorseCplxProps2 ShowModel ShowModel2 ShowSpec ShowSpec2 ShowProofs ShowProofs2 ShowProofs3 ShowProofs5 ConfConnProps.
Import ListNotations.
Open Scope nat_scope.
Open Scope list_scope.

Lemma udc_text g n c : enumerates g n c -> c_final c <> [] -> exists z, In z (cells_of_dim c (dimension z)) /\ show_cplx c = Some (complex_text (fun _ => lit "-cells:") z (cells_of_dim c) (c_dim c)).
Proof.
  intros HE NE. destruct (last_index c NE) as (z & Hz & Ez). exists (cellof c z). destruct (F_cell g n c HE z Hz) as (_ & Cz & Lz & _). split; [apply (cell_in g n c HE); auto|].
  assert (HD : forall i, In i (c_final c) -> dim_of c i = Some (dimension (cellof c i))) by (intros i Hi; destruct (F_cell g n c HE i Hi) as (_ & _ & _ & D & <-); exact D).
  assert (EC : forall k, cells_of_dim c k = cells_at c (cellof c) k).
  { intros k. rewrite (cells_Lk g n c k HE). unfold cells_at, Lk. f_equal. apply filter_ext_in. intros i Hi. destruct (F_cell g n c HE i Hi) as (_ & _ & _ & _ & ->). reflexivity. }
  unfold show_cplx. rewrite (omapM_ok _ (fun k => unlines ((show_nat k ++ lit "-cells:") :: map (cell_line (cellof c z)) (cells_of_dim c k)))); [reflexivity|].
  intros k _. unfold show_cells_of_dim. pose proof (show_lines c (cellof c) HD (cell_inj g n c HE) (fun i => do o <- get_cell_from_idx c i; do l <- o; show_cell c i l) z k Hz Ez) as K.
  destruct (filterM (fun i => do d <- dim_of c i; Some (d =? k)) (c_final c)) as [is|]; cbn [obind] in *.
  - rewrite K by (intros i Hi; destruct (F_cell g n c HE i Hi) as (E & _); rewrite E; reflexivity). cbn [obind]. f_equal. rewrite (EC k), <- (map_map (cell_line (cellof c z)) (fun l => ["010"%char] ++ l)). change (unlines ((show_nat k ++ lit "-cells:") :: map (cell_line (cellof c z)) (cells_at c (cellof c) k))) with (((show_nat k ++ lit "-cells:") ++ ["010"%char]) ++ unlines (map (cell_line (cellof c z)) (cells_at c (cellof c) k))).
    rewrite move_newline, <- !app_assoc. reflexivity.
  - discriminate K. intros i Hi. destruct (F_cell g n c HE i Hi) as (E & _). rewrite E. reflexivity.
Qed.

(** The text lists, under a heading for every dimension, every cell once. *)
Theorem C128_text : forall es gr n sg c, graph_from es = Some gr -> subdivided_graph_from gr n = Some sg -> connected (g_n_vertices (sg_data sg)) (edge (sg_data sg)) -> 1 <= n -> udc gr n = Some c ->
  exists z, In z (cells_of_dim c (dimension z)) /\ show_cplx c = Some (complex_text (fun _ => lit "-cells:") z (cells_of_dim c) (c_dim c)).
Proof.
  intros es gr n sg c E ES HC Hn EU. destruct (C56_udc es gr n sg E ES HC Hn) as (c' & EU' & HE). rewrite EU in EU'. injection EU' as <-. destruct (C95_subdivided es gr n sg E ES HC) as ((Hsz & _) & _).
  apply (udc_text (sg_data sg) n c HE). now apply (final_nonempty (sg_data sg) n c HE).
Qed.
Print Assumptions C128_text.
Lemma above g n c k : enumerates g n c -> c_dim c < k -> cells_of_dim c k = [].
Proof.
  intros HE Hk. destruct (cells_of_dim c k) as [|l t] eqn:El; [reflexivity|exfalso]. assert (Hl : In l (cells_of_dim c k)) by (rewrite El; now left). rewrite (cells_Lk g n c k HE) in Hl. unfold Lk in Hl. apply in_map_iff in Hl as (i & _ & Hi). apply filter_In in Hi as (Hi & D). apply Nat.eqb_eq in D.
  destruct (F_cell g n c HE i Hi) as (_ & _ & _ & D' & _). destruct HE as (_ & _ & _ & _ & _ & _ & DL & _). specialize (DL i _ Hi D'). lia.
Qed.
(** Two complexes that print alike have the same cells. *)
Theorem C128_determines : forall es gr n sg c es' gr' n' sg' c' t, graph_from es = Some gr -> subdivided_graph_from gr n = Some sg -> connected (g_n_vertices (sg_data sg)) (edge (sg_data sg)) -> 1 <= n -> udc gr n = Some c ->
  graph_from es' = Some gr' -> subdivided_graph_from gr' n' = Some sg' -> connected (g_n_vertices (sg_data sg')) (edge (sg_data sg')) -> 1 <= n' -> udc gr' n' = Some c' ->
  show_cplx c = Some t -> show_cplx c' = Some t -> n = n' /\ c_dim c = c_dim c' /\ forall k, cells_of_dim c k = cells_of_dim c' k.
Proof.
  intros es gr n sg c es' gr' n' sg' c' t E ES HC Hn EU E' ES' HC' Hn' EU' T T'.
  destruct (C128_text es gr n sg c E ES HC Hn EU) as (z & Hz & S). destruct (C128_text es' gr' n' sg' c' E' ES' HC' Hn' EU') as (z' & Hz' & S').
  destruct (C56_udc es gr n sg E ES HC Hn) as (c1 & EU1 & HE). rewrite EU in EU1. injection EU1 as <-. destruct (C56_udc es' gr' n' sg' E' ES' HC' Hn') as (c1 & EU1 & HE'). rewrite EU' in EU1. injection EU1 as <-.
  assert (H : complex_text (fun _ => lit "-cells:") z (cells_of_dim c) (c_dim c) = complex_text (fun _ => lit "-cells:") z' (cells_of_dim c') (c_dim c')) by congruence.
  apply (text_inj (fun _ => lit "-cells:")) in H.
  - destruct H as [Hd H]. assert (A : forall k, cells_of_dim c k = cells_of_dim c' k).
    { intros k. destruct (Nat.le_gt_cases k (c_dim c)) as [L|L]; [now apply H|]. rewrite (above _ _ _ _ HE L), (above _ _ _ _ HE') by lia. reflexivity. }
    split; [|split; [exact Hd|exact A]]. destruct (C127_connected es gr n sg c E ES HC Hn EU) as (NE & _). destruct (cells_of_dim c 0) as [|l t0] eqn:El; [now destruct NE|]. assert (H1 : In l (cells_of_dim c 0)) by (rewrite El; now left). assert (H2 : In l (cells_of_dim c' 0)) by (rewrite <- A, El; now left).
    apply (cell_in _ _ _ HE) in H1 as ((L1 & _) & _). apply (cell_in _ _ _ HE') in H2 as ((L2 & _) & _). congruence.
  - intros a b r s K. apply app_inv_head in K. now injection K.
  - intros _. eexists. eexists. split; reflexivity.
Qed.
Print Assumptions C128_determines.

(** The complex of critical cells: the heading also has the number of cells. *)
Definition total_head (k : nat) : text := lit "-cells: " ++ show_nat k ++ lit " cells in total".
Theorem C128_morse_text : forall es gr n sg upper c, graph_from es = Some gr -> subdivided_graph_from gr n = Some sg -> connected (g_n_vertices (sg_data sg)) (edge (sg_data sg)) -> 1 <= n -> upper <> Some 0 -> morse_cplx gr n upper = Some c ->
  exists cells z, (forall d, get_cells_of_dim c d = Some (cells d)) /\ In z (cells (dimension z)) /\ show_morse c = Some (complex_text (fun k => total_head (List.length (cells k))) z cells (c_dim c)).
Proof.
  intros es gr n sg upper c E ES HC Hn HU EM. pose proof EM as EM0. pose proof (subdivided_spread es gr n sg E ES HC) as HS. destruct n as [|r]; [lia|].
  destruct (C98_cells es gr (S r) sg upper E ES HC Hn) as (c2 & cells & EM2 & EC & HCells & (LR & HR) & HA & _). rewrite EM in EM2. injection EM2 as <-.
  destruct (top_spec (sg_data sg) (S r) HS upper r eq_refl) as (c1 & Ec & HL). unfold morse_cplx in EM. rewrite ES in EM. cbn [obind] in EM. rewrite EM in Ec. injection Ec as <-.
  destruct (lists_good (sg_data sg) (S r) upper r c eq_refl HL) as (ps & I & ND & _). pose proof (I_final _ _ _ _ I) as F2.
  set (cell := fun i => match cube_at c i with Some l => l | None => [] end).
  assert (UP : forall a i, nth_error (c_final c) a = Some i -> exists p, nth_error ps a = Some p /\ cube_at c i = Some (rev p) /\ dim_of c i = Some (dimension (cell i))).
  { intros a i Ha. assert (K : exists p, nth_error ps a = Some p /\ up (c_data c) i p).
    { clear -F2 Ha. revert a Ha. induction F2 as [|j p is ps H F IH]; intros [|a] Ha; try discriminate Ha; [injection Ha as <-; exists p; auto|now apply IH]. }
    destruct K as (p & Ep & U). exists p. split; [exact Ep|]. assert (CA : cube_at c i = Some (rev p)) by (unfold cube_at; now rewrite (factor_iter_up _ _ _ U)). split; [exact CA|]. unfold cell. rewrite CA, dimension_rev. exact (dim_of_up _ _ _ U). }
  assert (HD : forall i, In i (c_final c) -> dim_of c i = Some (dimension (cell i))) by (intros i Hi; apply In_nth_error in Hi as (a & Ha); destruct (UP a i Ha) as (_ & _ & _ & D); exact D).
  assert (CB : forall i, In i (c_final c) -> cube_at c i = Some (cell i)) by (intros i Hi; apply In_nth_error in Hi as (a & Ha); destruct (UP a i Ha) as (p & _ & D & _); unfold cell; now rewrite D).
  assert (INJ : forall i j, In i (c_final c) -> In j (c_final c) -> cell i = cell j -> i = j).
  { intros i j Hi Hj K. apply In_nth_error in Hi as (a & Ha). apply In_nth_error in Hj as (b & Hb). destruct (UP a i Ha) as (p & Ep & Ci & _), (UP b j Hb) as (q & Eq & Cj & _). unfold cell in K. rewrite Ci, Cj in K. apply (f_equal (@rev _)) in K. rewrite !rev_involutive in K. subst q.
    assert (a = b) by (apply (proj1 (NoDup_nth_error ps) ND); [apply nth_error_Some; congruence|congruence]). congruence. }
  assert (CE : forall k, cells k = cells_at c cell k).
  { intros k. specialize (EC k). unfold get_cells_of_dim in EC. rewrite (filterM_filter _ (fun i => dimension (cell i) =? k)) in EC by (intros i Hi; now rewrite (HD i Hi)). cbn [obind] in EC. rewrite (omapM_ok _ cell) in EC by (intros i Hi; apply filter_In in Hi as [Hi _]; now apply CB). injection EC as EC. now rewrite <- EC. }
  assert (NE : c_final c <> []).
  { intros K. assert (B : cells 0 = [map FVertex (seq 0 (S r))]). { assert (C0 : get_cells_of_dim c 0 = Some [map FVertex (seq 0 (S r))]) by (apply (C103_base es gr (S r) sg upper c E ES HC Hn HU EM0)). rewrite EC in C0. now injection C0. }
    rewrite CE in B. unfold cells_at in B. rewrite K in B. discriminate B. }
  destruct (last_index c NE) as (z & Hz & Ez). exists cells, (cell z). split; [exact EC|]. split; [rewrite CE; apply in_map, filter_In; split; [exact Hz|apply Nat.eqb_refl]|].
  unfold show_morse. rewrite (omapM_ok _ (fun k => unlines ((show_nat k ++ total_head (List.length (cells k))) :: map (cell_line (cell z)) (cells k)))); [reflexivity|].
  intros k Hk. apply in_seq in Hk. unfold show_morse_dim. assert (Hkn : k <= S r).
  { pose proof (I_dim _ _ _ _ I) as D. destruct (Nat.eq_dec (c_dim c) 0) as [|N0]; [lia|]. destruct (cells (c_dim c)) as [|l t] eqn:El.
    - exfalso. destruct (C98_cells es gr (S r) sg upper E ES HC Hn) as (c2 & cells2 & EM2 & EC2 & _ & _ & _ & HN). unfold morse_cplx in EM2. rewrite ES in EM2. cbn [obind] in EM2. rewrite EM in EM2. injection EM2 as <-. apply HN; [lia|]. specialize (EC2 (c_dim c)). rewrite EC in EC2. injection EC2 as <-. exact El.
    - destruct (HCells (c_dim c)) as (_ & Q). destruct (Q l) as ((Ll & _) & _ & Dl & _); [rewrite El; now left|]. pose proof (dimension_le l). lia. }
  rewrite (HR k Hkn). cbn [obind]. pose proof (show_lines c cell HD INJ (fun i => do l <- cube_at c i; show_cell c i l) z k Hz Ez) as K.
  destruct (filterM (fun i => do d <- dim_of c i; Some (d =? k)) (c_final c)) as [is|]; cbn [obind] in *.
  - rewrite K by (intros i Hi; rewrite (CB i Hi); reflexivity). cbn [obind]. f_equal. rewrite (CE k), <- (map_map (cell_line (cell z)) (fun l => ["010"%char] ++ l)). change (unlines ((show_nat k ++ total_head (List.length (cells_at c cell k))) :: map (cell_line (cell z)) (cells_at c cell k))) with (((show_nat k ++ total_head (List.length (cells_at c cell k))) ++ ["010"%char]) ++ unlines (map (cell_line (cell z)) (cells_at c cell k))).
    rewrite move_newline. unfold total_head. rewrite <- !app_assoc. reflexivity.
  - discriminate K. intros i Hi. rewrite (CB i Hi). reflexivity.
Qed.
Print Assumptions C128_morse_text.
Theorem C128_morse_determines : forall es gr n sg upper c es' gr' n' sg' upper' c' t, graph_from es = Some gr -> subdivided_graph_from gr n = Some sg -> connected (g_n_vertices (sg_data sg)) (edge (sg_data sg)) -> 1 <= n -> upper <> Some 0 -> morse_cplx gr n upper = Some c ->
  graph_from es' = Some gr' -> subdivided_graph_from gr' n' = Some sg' -> connected (g_n_vertices (sg_data sg')) (edge (sg_data sg')) -> 1 <= n' -> upper' <> Some 0 -> morse_cplx gr' n' upper' = Some c' ->
  show_morse c = Some t -> show_morse c' = Some t -> c_dim c = c_dim c' /\ forall k, get_cells_of_dim c k = get_cells_of_dim c' k.
Proof.
  intros es gr n sg upper c es' gr' n' sg' upper' c' t E ES HC Hn HU EM E' ES' HC' Hn' HU' EM' T T'.
  destruct (C128_morse_text es gr n sg upper c E ES HC Hn HU EM) as (cells & z & EC & _ & S). destruct (C128_morse_text es' gr' n' sg' upper' c' E' ES' HC' Hn' HU' EM') as (cells' & z' & EC' & _ & S').
  assert (H : complex_text (fun k => total_head (List.length (cells k))) z cells (c_dim c) = complex_text (fun k => total_head (List.length (cells' k))) z' cells' (c_dim c')) by congruence.
  apply (text_inj total_head) in H.
  - destruct H as [Hd H]. split; [exact Hd|]. intros k. rewrite EC, EC'. f_equal. destruct (Nat.le_gt_cases k (c_dim c)) as [L|L]; [now apply H|].
    destruct (C98_cells es gr n sg upper E ES HC Hn) as (c2 & cs & EM2 & EC2 & _ & _ & HA & _). rewrite EM in EM2. injection EM2 as <-. destruct (C98_cells es' gr' n' sg' upper' E' ES' HC' Hn') as (c2 & cs' & EM2 & EC2' & _ & _ & HA' & _). rewrite EM' in EM2. injection EM2 as <-.
    specialize (EC2 k). specialize (EC2' k). rewrite EC in EC2. rewrite EC' in EC2'. injection EC2 as ->. injection EC2' as ->. rewrite HA, HA' by lia. reflexivity.
  - intros a b r s K. unfold total_head in K. rewrite <- !app_assoc in K. apply app_inv_head in K. apply show_nat_split in K; [|st|st]. destruct K as [_ K]. apply app_inv_head in K. now injection K.
  - intros m. eexists. eexists. split; reflexivity.
Qed.
Print Assumptions C128_morse_determines.

(** Two points on a segment, and the critical cells for two points on the graph with two loops; the comma is missing at the last cell in the order of
    construction. *)
Definition one_segment : list (string * string) := [("a", "b")]%string.
Example C128_nontrivial : (do gr <- graph_from one_segment; do sg <- subdivided_graph_from gr 2; g_is_connected (sg_data sg)) = Some true /\
  (do gr <- graph_from one_segment; do c <- udc gr 2; option_map string_of_list_ascii (show_cplx c)) = Some "0-cells:
	{0, 1, }, 
	{0, 2, }, 
	{1, 2, }, 
1-cells:
	{0, [1 2], }, 
	{[0 1], 2, }
"%string.
Proof. split; vm_compute; reflexivity. Qed.
Example C128_morse_nontrivial : (do gr <- graph_from two_loops; do c <- morse_cplx gr 2 None; option_map string_of_list_ascii (show_morse c)) = Some "0-cells: 1 cells in total
	{0, 1, }, 
1-cells: 6 cells in total
	{0, [4 6], }, 
	{0, [2 8], }, 
	{[4 6], 5, }, 
	{[2 7], 3, }, 
	{[2 8], 3, }, 
	{[2 8], 7, }, 
2-cells: 1 cells in total
	{[2 8], [4 6], }
"%string.
Proof. vm_compute. reflexivity. Qed.
