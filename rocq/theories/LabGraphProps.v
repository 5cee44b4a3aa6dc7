(** C50, C54, C66: labelled graphs. *)
From Coq Require Import List Arith ZArith Bool Lia ZifyBool ZifyNat String Ring_theory.
From Verif Require Import UtilModel PidModel PermModel MatModel MatSpec MatProofs MatProofs2 SnfModel GraphModel LabGraphModel LabGraphSpec LabGraphProofs LabGraphProofs2.
Import ListNotations.
Open Scope nat_scope.

(** C50: when [Graph::from] returns, the vertices are the mentioned labels, each once; the cell of vertices i <= j holds the number of edges
    joining their labels and the other cells are empty; loops and other edges are counted right. *)
Theorem C50_from : forall es g, graph_from es = Some g ->
  NoDup (lg_labels g) /\ (forall v, In v (lg_labels g) <-> mentions es v) /\ lg_n_vertices g = List.length (lg_labels g) /\
  (forall i j a b, nth_error (lg_labels g) i = Some a -> nth_error (lg_labels g) j = Some b -> cell (lg_data g) i j = Some (if i <=? j then mult es a b else 0)) /\
  lg_loops g = List.length (loops es) /\ lg_non_loop g = List.length (non_loops es) /\ lg_loops g + lg_non_loop g = List.length es.
Proof.
  intros es g E. rewrite graph_from_spec in E. destruct (_ <=? _); [|discriminate E]. injection E as <-. cbn [lg_labels lg_data lg_loops lg_non_loop].
  split; [apply registered_NoDup|]. split; [intros v; apply registered_in|]. split; [reflexivity|]. split; [|split; [reflexivity|]; split; [reflexivity|apply loops_split]].
  intros i j a b Ea Eb. assert (Hi : i < List.length (registered es)) by (apply nth_error_Some; congruence). assert (Hj : j < List.length (registered es)) by (apply nth_error_Some; congruence).
  unfold gtab. rewrite cell_tab by assumption. unfold mcell. now rewrite (nth_error_nth _ _ EmptyString Ea), (nth_error_nth _ _ EmptyString Eb).
Qed.
Print Assumptions C50_from.
(** It panics exactly when there are more loops than distinct joined pairs of vertices. *)
Theorem C50_panics_refuted : forall es, graph_from es = None <-> List.length (classes es) < List.length (loops es).
Proof. intros es. rewrite graph_from_spec. destruct (Nat.leb_spec (List.length (loops es)) (List.length (classes es))); split; (discriminate || lia || reflexivity). Qed.
Print Assumptions C50_panics_refuted.
(** The number of non-loop edges up to multiplicity is right exactly for the graphs without repeated loops (where the call never panics). *)
Theorem C50_up_to_multiplicity_partial : forall es, (forall v, mult es v v <= 1) ->
  exists g, graph_from es = Some g /\ lg_mult g = List.length (non_loops (classes es)).
Proof.
  intros es H. apply classes_loops_iff in H. pose proof (loops_split (classes es)) as S1. rewrite graph_from_spec. replace (_ <=? _) with true by lia. eexists. split; [reflexivity|]. cbn [lg_mult]. lia.
Qed.
Print Assumptions C50_up_to_multiplicity_partial.
Theorem C50_refuted_repeated_loop : forall es g, graph_from es = Some g -> (exists v, 2 <= mult es v v) -> lg_mult g < List.length (non_loops (classes es)).
Proof.
  intros es g E (v & Hv). rewrite graph_from_spec in E. destruct (Nat.leb_spec (List.length (loops es)) (List.length (classes es))) as [K|K]; [|discriminate E]. injection E as <-. cbn [lg_mult].
  pose proof (loops_split (classes es)) as S1. pose proof (firsts_loops_le [] es) as S2. fold (classes es) in S2. destruct (Nat.eq_dec (List.length (loops (classes es))) (List.length (loops es))) as [Q|Q]; [|lia].
  apply classes_loops_iff with (v := v) in Q. lia.
Qed.
Print Assumptions C50_refuted_repeated_loop.
Open Scope string_scope.
Example C50_nontrivial : option_map (fun g => (lg_labels g, lg_data g, lg_non_loop g, lg_mult g, lg_loops g)) (graph_from [("b","a"); ("a","c"); ("a","b"); ("c","c"); ("b","a")]) =
    Some (["b"; "a"; "c"], [[0; 3; 0]; [0; 0; 1]; [0; 0; 1]], 4, 2, 1) /\
  graph_from [("v","v"); ("v","v")] = None /\
  option_map lg_mult (graph_from [("v","v"); ("v","v"); ("a","b")]) = Some 0 /\ List.length (non_loops (classes [("v","v"); ("v","v"); ("a","b")])) = 1.
Proof. vm_compute. auto. Qed.
Close Scope string_scope.

(** C54: the matrix of [WeightedSimpleGraph::from] holds the weight of each pair of labels (the last one given), zero if there is none; it
    panics exactly for an empty list or a loop. *)
Theorem C54_from : forall (T : Type) (O : Ops T) (input : list (string * string * T)),
  if existsb (fun e => is_loop (fst e)) input || (List.length input =? 0) then wgraph_from input = None
  else exists g, wgraph_from input = Some g /\ NoDup (wg_labels g) /\ (forall v, In v (wg_labels g) <-> mentions (map fst input) v) /\
    nr (wg_data g) = List.length (wg_labels g) /\ nc (wg_data g) = List.length (wg_labels g) /\
    (forall i j a b, nth_error (wg_labels g) i = Some a -> nth_error (wg_labels g) j = Some b -> mget (wg_data g) i j = Some (weight t0 input a b)).
Proof.
  intros T O input. rewrite wgraph_from_spec. destruct (existsb _ input); [reflexivity|]. destruct input as [|e input]; [reflexivity|]. cbn [orb List.length Nat.eqb]. set (inp := e :: input).
  eexists. split; [reflexivity|]. cbn [wg_labels wg_data]. split; [apply registered_NoDup|]. split; [intros v; apply registered_in|]. split; [reflexivity|]. split; [reflexivity|].
  intros i j a b Ea Eb. assert (Hi : i < List.length (wlabels inp)) by (apply nth_error_Some; congruence). assert (Hj : j < List.length (wlabels inp)) by (apply nth_error_Some; congruence).
  rewrite mget_in by assumption. unfold wfun. now rewrite (nth_error_nth _ _ EmptyString Ea), (nth_error_nth _ _ EmptyString Eb).
Qed.
Print Assumptions C54_from.
(** The Laplacian has the weighted degrees on the diagonal and the negated weights off it; it is symmetric and its rows sum to zero. *)
Theorem C54_laplacian : forall (T : Type) (O : Ops T), ring_laws -> forall (input : list (string * string * T)) g, wgraph_from input = Some g ->
  let n := List.length (wg_labels g) in let lab i := nth i (wg_labels g) EmptyString in
  exists L, laplacian g = Some L /\ wf L /\ nr L = n /\ nc L = n /\
    (forall i j, i < n -> j < n -> mget L i j = Some (if i =? j then sum n (fun k => weight t0 input (lab i) (lab k)) else topp (weight t0 input (lab i) (lab j)))) /\
    (forall i j, i < n -> j < n -> mget L i j = mget L j i) /\
    (forall i, i < n -> sum n (ent L i) = t0).
Proof.
  intros T O RL input g E. rewrite wgraph_from_spec in E. destruct (existsb _ input) eqn:EX; [discriminate E|]. destruct input as [|e input]; [discriminate E|]. set (inp := e :: input) in *. injection E as <-. cbn [wg_labels]. cbn zeta.
  set (n := List.length (wlabels inp)). set (lab := fun i => nth i (wlabels inp) EmptyString).
  assert (ON : forall x, tmul x (topp t1) = topp x).
  { intros x. now apply neg_one. }
  exists (mk n n (fun i j => if i =? j then sum n (wfun inp i) else tmul (wfun inp i j) (topp t1))). split; [apply laplacian_spec|]. split; [apply wf_mk|]. split; [reflexivity|]. split; [reflexivity|].
  assert (G : forall i j, i < n -> j < n -> mget (mk n n (fun i j => if i =? j then sum n (wfun inp i) else tmul (wfun inp i j) (topp t1))) i j = Some (if i =? j then sum n (wfun inp i) else topp (wfun inp i j))) by (intros i j Hi Hj; rewrite mget_in by assumption; now rewrite ON).
  split; [intros i j Hi Hj; now rewrite G|]. split.
  - intros i j Hi Hj. rewrite !G by assumption. rewrite (Nat.eqb_sym j i). destruct (Nat.eqb_spec i j) as [->|N]; [reflexivity|]. unfold wfun. now rewrite weight_flip.
  - intros i Hi. rewrite (sum_ext n _ (fun j => if i =? j then sum n (wfun inp i) else tmul (wfun inp i j) (topp t1))) by (intros k Hk; now rewrite ent_mk). apply (laplacian_rows RL); [exact Hi|].
    unfold wfun. apply weight_diag. intros f Hf. destruct (is_loop (fst f)) eqn:K; [|reflexivity]. assert (Q : existsb (fun e => is_loop (fst e)) inp = true) by (apply existsb_exists; exists f; auto). congruence.
Qed.
Print Assumptions C54_laplacian.
Open Scope string_scope.
Example C54_nontrivial : ring_laws (T := Z) /\
  (do g <- wgraph_from [("a","b",2%Z); ("b","c",3%Z); ("b","a",5%Z)]; do L <- laplacian g; Some (wg_labels g, rws L)) = Some (["a"; "b"; "c"], [[5; -5; 0]; [-5; 8; -3]; [0; -3; 3]]%Z) /\
  wgraph_from [("a","b",2%Z); ("a","a",3%Z)] = None.
Proof. split; [exact Zth|]. vm_compute. auto. Qed.
Close Scope string_scope.
