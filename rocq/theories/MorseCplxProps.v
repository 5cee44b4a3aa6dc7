(** C98-C101: the complex of critical cells. *)
From Coq Require Import String List Arith ZArith Bool Lia Sorted Permutation.
From Verif Require Import PidModel SnfModel MatModel LinModel GraphModel GraphSpec GraphProofs GraphProofs7 GraphProofs8 GraphProps LabGraphModel SubdivProps UtilModel
  CubeModel CubeSpec CubeProofs CubeProofs2 CubeProps CubePartialModel MorseModel MorseSpec MorseProofs MorseProofs4 MorseProps MorseCplxModel MorseCplxSpec MorseCplxProofs MorseCplxProofs2 MorseCplxProofs3 MorseCplxProofs4.
Import ListNotations.
Open Scope nat_scope.
Open Scope list_scope.

(** C98: for a connected graph and at least one point the construction never panics, whatever the bound on the dimension; what [get_cells_of_dim] lists
    are configurations, each once, in increasing order, without edges between consecutive vertices, and the recorded ranks and dimension count them. *)
Theorem C98_cells : forall es gr n sg upper, graph_from es = Some gr -> subdivided_graph_from gr n = Some sg -> connected (g_n_vertices (sg_data sg)) (edge (sg_data sg)) -> 1 <= n ->
  exists c cells, morse_cplx gr n upper = Some c /\ (forall d, get_cells_of_dim c d = Some (cells d)) /\
    (forall d, NoDup (cells d) /\ forall l, In l (cells d) -> configuration (sg_data sg) n l /\ listed l /\ dimension l = d /\ forall x y, In (FEdge x y) l -> x + 1 < y) /\
    (List.length (c_ranks c) = n + 1 /\ forall d, d <= n -> nth_error (c_ranks c) d = Some (List.length (cells d))) /\
    (forall d, c_dim c < d -> cells d = []) /\ (0 < c_dim c -> cells (c_dim c) <> []).
Proof.
  intros es gr n sg upper E ES HC Hn. pose proof (subdivided_spread es gr n sg E ES HC) as HS. set (g := sg_data sg) in *. destruct n as [|r]; [lia|].
  destruct (top_spec g (S r) HS upper r eq_refl) as (c & Ec & HL). destruct (lists_good g (S r) upper r c eq_refl HL) as (ps' & I' & ND & HG). destruct HL as (labels & F & NDl & Hlab & _ & HF & I).
  exists c, (fun d => map (@rev factor) (filter (fun p => dimension p =? d) ps')). split; [unfold morse_cplx; rewrite ES; exact Ec|]. split; [intros d; now apply (cells_of c g (S r))|].
  assert (IN : forall d l, In l (map (@rev factor) (filter (fun p => dimension p =? d) ps')) -> exists p, l = rev p /\ In p ps' /\ dimension p = d).
  { intros d l Hl. apply in_map_iff in Hl as (p & <- & Hp). apply filter_In in Hp as (Hp & Hd). apply Nat.eqb_eq in Hd. eauto. }
  split; [|split; [|split]].
  - intros d. split.
    + apply FinFun.Injective_map_NoDup; [|now apply NoDup_filter]. intros a b K. rewrite <- (rev_involutive a), K. apply rev_involutive.
    + intros l Hl. destruct (IN d l Hl) as (p & -> & Hp & Hd). destruct (HG p Hp) as (Gp & Lp). destruct (good_rev g (S r) p Gp Lp) as (A & B & C). split; [exact A|]. split; [exact B|]. split; [now rewrite dimension_rev|exact C].
  - rewrite (I_ranks _ _ _ _ I'). rewrite map_length, seq_length. split; [reflexivity|]. intros d Hd. rewrite nth_error_map, nth_error_nth' with (d := 0) by (rewrite seq_length; lia). rewrite seq_nth by lia. cbn [option_map Nat.add]. rewrite map_length. reflexivity.
  - intros d Hd. rewrite (I_dim _ _ _ _ I') in Hd. destruct (map _ _) as [|l t] eqn:El; [reflexivity|]. exfalso. destruct (IN d l) as (p & _ & Hp & Hpd); [rewrite El; now left|]. unfold top_dim in Hd.
    pose proof (proj1 (list_max_le (map dimension ps') _) (Nat.le_refl _)) as LM. rewrite Forall_forall in LM. specialize (LM (dimension p) (in_map _ _ _ Hp)). lia.
  - rewrite (I_dim _ _ _ _ I'). unfold top_dim. intros Hd K. apply map_eq_nil in K. assert (exists p, In p ps' /\ dimension p = list_max (map dimension ps')) as (p & Hp & Ep).
    { clear -Hd. induction ps' as [|p ps IH]; [cbn in Hd; lia|]. cbn [map] in *. change (list_max (dimension p :: map dimension ps)) with (Nat.max (dimension p) (list_max (map dimension ps))) in *.
      destruct (Nat.max_spec (dimension p) (list_max (map dimension ps))) as [[M1 M2]|[M1 M2]]; rewrite M2 in *; [destruct IH as (q & Hq & Eq); [lia|]; exists q; split; [now right|exact Eq]|exists p; split; [now left|reflexivity]]. }
    assert (In p (filter (fun p => dimension p =? list_max (map dimension ps')) ps')) as Kp by (apply filter_In; split; [exact Hp|now apply Nat.eqb_eq]). now rewrite K in Kp.
Qed.
Print Assumptions C98_cells.
Open Scope string_scope.
Definition both (es : list (string * string)) (n : nat) (upper : option nat) : option (rawg * cplx) :=
  do gr <- graph_from es; do sg <- subdivided_graph_from gr n; do c <- morse_cplx gr n upper; Some (sg_data sg, c).
Close Scope string_scope.
Lemma both_spec es n upper g c : both es n upper = Some (g, c) -> g_is_connected g = Some true ->
  exists gr sg, graph_from es = Some gr /\ subdivided_graph_from gr n = Some sg /\ g = sg_data sg /\ connected (g_n_vertices g) (edge g) /\ arranged g /\ morse_cplx gr n upper = Some c.
Proof.
  unfold both. destruct (graph_from es) as [gr|] eqn:E; [|discriminate]. cbn [obind]. destruct (subdivided_graph_from gr n) as [sg|] eqn:ES; [|discriminate]. cbn [obind]. destruct (morse_cplx gr n upper) as [c'|] eqn:EM; [|discriminate]. cbn [obind].
  intros K HC. injection K as <- <-. exists gr, sg. pose proof (subdivided_connected _ _ _ _ E ES HC) as C. split; [reflexivity|]. split; [exact ES|]. split; [reflexivity|]. split; [exact C|]. split; [now apply (ar_sub es gr n sg)|exact EM].
Qed.
Example C98_nontrivial : exists es gr sg c, graph_from es = Some gr /\ subdivided_graph_from gr 3 = Some sg /\ connected (g_n_vertices (sg_data sg)) (edge (sg_data sg)) /\ morse_cplx gr 3 None = Some c /\
  c_ranks c = [1; 28; 33; 2] /\ c_dim c = 3 /\ get_cells_of_dim c 3 = Some [[FEdge 2 11; FEdge 4 7; FEdge 6 10]; [FEdge 2 12; FEdge 4 7; FEdge 6 10]].
Proof.
  exists [("b","x"); ("x","s"); ("s","t"); ("t","t"); ("t","s"); ("s","x"); ("s","x")]%string. destruct (both [("b","x"); ("x","s"); ("s","t"); ("t","t"); ("t","s"); ("s","x"); ("s","x")]%string 3 None) as [(g & c)|] eqn:E; [|vm_compute in E; discriminate E].
  assert (HC : g_is_connected g = Some true) by (vm_compute in E; injection E as <- _; vm_compute; reflexivity).
  destruct (both_spec _ _ _ _ _ E HC) as (gr & sg & E1 & E2 & -> & C & _ & EM). exists gr, sg, c. split; [exact E1|]. split; [exact E2|]. split; [exact C|]. split; [exact EM|]. vm_compute in E. injection E as _ <-. vm_compute. repeat split.
Qed.
(** C101: a positive bound on the dimension is respected. *)
Theorem C101_bound_partial : forall es gr n sg u d cells c, graph_from es = Some gr -> subdivided_graph_from gr n = Some sg -> connected (g_n_vertices (sg_data sg)) (edge (sg_data sg)) -> 1 <= n -> 1 <= u ->
  morse_cplx gr n (Some u) = Some c -> get_cells_of_dim c d = Some cells -> u < d -> cells = [] /\ c_dim c <= u.
Proof.
  intros es gr n sg u d cells c E ES HC Hn Hu EM EC Hd. pose proof (subdivided_spread es gr n sg E ES HC) as HS. set (g := sg_data sg) in *. destruct n as [|r]; [lia|].
  destruct (top_spec g (S r) HS (Some u) r eq_refl) as (c' & Ec & HL). unfold morse_cplx in EM. rewrite ES in EM. cbn [obind] in EM. fold g in EM. rewrite EM in Ec. injection Ec as <-. destruct HL as (labels & F & NDl & Hlab & _ & HF & I).
  rewrite (cells_of c g (S r) _ d I) in EC. injection EC as <-. split.
  - destruct (filter _ _) as [|p t] eqn:El; [reflexivity|]. exfalso. assert (In p (p :: t)) as Hp by now left. rewrite <- El in Hp. apply filter_In in Hp as (Hp & Hpd). apply Nat.eqb_eq in Hpd. apply (enum_dim g labels u r F p Hlab Hu) in Hp. lia.
  - rewrite (I_dim _ _ _ _ I). unfold top_dim. apply list_max_le, Forall_forall. intros k Hk. apply in_map_iff in Hk as (p & <- & Hp). now apply (enum_dim g labels u r F p Hlab Hu).
Qed.
Print Assumptions C101_bound_partial.
(** The bound 0 is not respected: it is not looked at for the first factor, and then never met again. *)
Theorem C101_refuted : exists es gr sg c, graph_from es = Some gr /\ subdivided_graph_from gr 3 = Some sg /\ connected (g_n_vertices (sg_data sg)) (edge (sg_data sg)) /\ morse_cplx gr 3 (Some 0) = Some c /\ c_dim c = 3.
Proof.
  exists [("b","x"); ("x","s"); ("s","t"); ("t","t"); ("t","s"); ("s","x"); ("s","x")]%string. destruct (both [("b","x"); ("x","s"); ("s","t"); ("t","t"); ("t","s"); ("s","x"); ("s","x")]%string 3 (Some 0)) as [(g & c)|] eqn:E; [|vm_compute in E; discriminate E].
  assert (HC : g_is_connected g = Some true) by (vm_compute in E; injection E as <- _; vm_compute; reflexivity).
  destruct (both_spec _ _ _ _ _ E HC) as (gr & sg & E1 & E2 & -> & C & _ & EM). exists gr, sg, c. split; [exact E1|]. split; [exact E2|]. split; [exact C|]. split; [exact EM|]. vm_compute in E. injection E as _ <-. vm_compute. reflexivity.
Qed.
Print Assumptions C101_refuted.

(** C99: the listed cells should be the critical ones.  They are not in general; a critical cell that is missing: *)
Theorem C99_refuted : exists es gr sg c l, graph_from es = Some gr /\ subdivided_graph_from gr 3 = Some sg /\ connected (g_n_vertices (sg_data sg)) (edge (sg_data sg)) /\ morse_cplx gr 3 None = Some c /\
  critical (sg_data sg) 3 l /\ dimension l = 2 /\ listed l /\ forall cells, get_cells_of_dim c 2 = Some cells -> ~ In l cells.
Proof.
  exists [("b","x"); ("x","s"); ("s","t"); ("t","t"); ("t","s"); ("s","x"); ("s","x")]%string. destruct (both [("b","x"); ("x","s"); ("s","t"); ("t","t"); ("t","s"); ("s","x"); ("s","x")]%string 3 None) as [(g & c)|] eqn:E; [|vm_compute in E; discriminate E].
  assert (HC : g_is_connected g = Some true) by (vm_compute in E; injection E as <- _; vm_compute; reflexivity).
  destruct (both_spec _ _ _ _ _ E HC) as (gr & sg & E1 & E2 & Eg & C & Ar & EM). exists gr, sg, c, [FEdge 4 7; FEdge 6 10; FVertex 12]. rewrite <- Eg. split; [exact E1|]. split; [exact E2|]. split; [exact C|]. split; [exact EM|].
  assert (Cf : configuration g 3 [FEdge 4 7; FEdge 6 10; FVertex 12]) by (apply (cellsb_spec g [FEdge 4 7; FEdge 6 10; FVertex 12]); vm_compute in E; injection E as <- _; vm_compute; reflexivity).
  split; [split; [exact Cf|]|].
  - apply (C94_property g _ Ar (proj1 (proj2 Cf))). vm_compute in E. injection E as <- _. vm_compute. reflexivity.
  - split; [reflexivity|]. split; [repeat constructor|]. vm_compute in E. injection E as _ <-. intros cells EC. vm_compute in EC. injection EC as <-. intros K. repeat (destruct K as [K|K]; [discriminate K|]). exact K.
Qed.
Print Assumptions C99_refuted.
(** a listed cell that is not critical: *)
Theorem C99_extra_refuted : exists es gr sg c l cells, graph_from es = Some gr /\ subdivided_graph_from gr 3 = Some sg /\ connected (g_n_vertices (sg_data sg)) (edge (sg_data sg)) /\ morse_cplx gr 3 None = Some c /\
  get_cells_of_dim c 1 = Some cells /\ In l cells /\ property (sg_data sg) l = Some (MorseModel.Redundant 2) /\ ~ critical (sg_data sg) 3 l.
Proof.
  exists [("c","a"); ("a","d"); ("a","b"); ("d","a"); ("a","d")]%string. destruct (both [("c","a"); ("a","d"); ("a","b"); ("d","a"); ("a","d")]%string 3 None) as [(g & c)|] eqn:E; [|vm_compute in E; discriminate E].
  assert (HC : g_is_connected g = Some true) by (vm_compute in E; injection E as <- _; vm_compute; reflexivity).
  destruct (both_spec _ _ _ _ _ E HC) as (gr & sg & E1 & E2 & Eg & C & Ar & EM). exists gr, sg, c, [FEdge 4 6; FVertex 5; FVertex 7]. rewrite <- Eg. eexists. split; [exact E1|]. split; [exact E2|]. split; [exact C|]. split; [exact EM|].
  assert (P : property g [FEdge 4 6; FVertex 5; FVertex 7] = Some (MorseModel.Redundant 2)) by (vm_compute in E; injection E as <- _; vm_compute; reflexivity).
  split; [vm_compute in E; injection E as _ <-; vm_compute; reflexivity|]. split; [|split; [exact P|]].
  - cbn [In]. repeat (first [left; reflexivity|right]).
  - intros (Cf & K). apply (C94_property g _ Ar (proj1 (proj2 Cf))) in K. congruence.
Qed.
Print Assumptions C99_extra_refuted.
(** C100: the complex should have the Euler characteristic of the configuration space.  On the H-shaped tree with three points it has not. *)
Theorem C100_refuted : exists gr m u, graph_from H_tree = Some gr /\ morse_cplx gr 3 None = Some m /\ udc gr 3 = Some u /\ c_ranks m = [1; 6; 1; 0] /\ c_ranks u = [165; 360; 238; 48].
Proof.
  do 3 eexists. split; [vm_compute; reflexivity|]. split; [vm_compute; reflexivity|]. split; [vm_compute; reflexivity|]. vm_compute. split; reflexivity.
Qed.
Print Assumptions C100_refuted.
