(** Model of the labelled graphs of topo_spaces/src/graph.rs: [Graph] (28-115), [SimpleGraph] (1091-1215) and [WeightedSimpleGraph] (1667-1745).
    Labels are strings.  The [Edge] values of a [Graph] all carry the weight one and are never read, so a cell of [data] is its number of edges.
    [usize] is unbounded above; subtraction below zero and indexing out of range are [None]. *)
From Coq Require Import List Arith ZArith Bool String.
From Verif Require Import UtilModel PidModel PermModel MatModel SnfModel GraphModel.
Import ListNotations.
Open Scope nat_scope.

(** std [iter().position(|x| x == v)] and [contains]. *)
Fixpoint position (v : string) (l : list string) : option nat :=
  match l with [] => None | x :: t => if String.eqb x v then Some 0 else option_map S (position v t) end.
Definition has (v : string) (l : list string) : bool := existsb (fun x => String.eqb x v) l.
(** graph.rs:49-54: [if !contains {push}]. *)
Definition register (l : list string) (v : string) : list string := if has v l then l else l ++ [v].
(** graph.rs:46-55: registering vertices. *)
Definition registered (es : list (string * string)) : list string := fold_left (fun l e => register (register l (fst e)) (snd e)) es [].

(** graph.rs:28-36 [struct Graph]. *)
Record lgraph := LG { lg_data : list (list nat); lg_labels : list string; lg_non_loop : nat; lg_mult : nat; lg_loops : nat }.

(** [x -= 1] *)
Definition dec1 (x : nat) : option nat := match x with O => None | S y => Some y end.
Definition cell (d : list (list nat)) (i j : nat) : option nat := do r <- nth_error d i; nth_error r j.
Definition bump (d : list (list nat)) (i j : nat) : option (list (list nat)) :=
  do r <- nth_error d i; do c <- nth_error r j; Some (lset d i (lset r j (S c))).
(** graph.rs:60-92: one edge; the state is (data, n_non_loop, n_up_to_multiplicity, n_loops). *)
Definition register_edge (labels : list string) (st : list (list nat) * nat * nat * nat) (e : string * string) : option (list (list nat) * nat * nat * nat) :=
  let '(d, nl, nm, lo) := st in
  do v <- position (fst e) labels;
  do w <- position (snd e) labels;
  let '(v, w) := if v <=? w then (v, w) else (w, v) in
  do d' <- bump d v w;
  do c <- cell d' v w;
  do nm1 <- (if 1 <? c then dec1 nm else Some nm);
  if v =? w then do nl' <- dec1 nl; do nm2 <- dec1 nm1; Some (d', nl', nm2, S lo)
  else Some (d', nl, nm1, lo).
(** graph.rs:41-101 [Graph::from]. *)
Definition graph_from (es : list (string * string)) : option lgraph :=
  let labels := registered es in
  let n := List.length labels in
  do st <- foldM (register_edge labels) es (repeat (repeat 0 n) n, List.length es, List.length es, 0);
  let '(d, nl, nm, lo) := st in Some (LG d labels nl nm lo).
(** graph.rs:102-114. *)
Definition lg_n_vertices (g : lgraph) : nat := List.length (lg_labels g).

(** graph.rs:206-236 [SimpleVertex], [VertexVector]; the position [pos] is kept as a reduced-or-not fraction (numerator, denominator): it is
    only stored here. *)
Inductive svertex := Essential (s : string) | Redundant (s t : string) (k : nat) (num den : nat).
(** graph.rs:1091-1096 [struct SimpleGraph]. *)
Record sgraph := SG { sg_data : rawg; sg_list : list svertex; sg_ess : nat }.

(** graph.rs:1151-1157, 1168-1174: the first and the further inner vertices of one subdivided edge. *)
Definition push_vertex (s t : string) (k den : nat) (st : rawg * list svertex) (from l : nat) : option (rawg * list svertex) :=
  do g <- add_edge (fst st) from (List.length (snd st)); Some (g, snd st ++ [Redundant s t k l den]).
Definition push_chain (s t : string) (i j k mid den : nat) (st : rawg * list svertex) : option (rawg * list svertex) :=
  do st1 <- push_vertex s t k den st i 1;
  do st2 <- foldM (fun st l => push_vertex s t k den st (List.length (snd st) - 1) l) (rng 2 (mid + 1)) st1;
  do g <- add_edge (fst st2) j (List.length (snd st2) - 1);
  Some (g, snd st2).
(** graph.rs:1150-1160, 1166-1177: all parallel edges of one cell. *)
Definition push_cell (gr : lgraph) (i j mid den : nat) (st : rawg * list svertex) : option (rawg * list svertex) :=
  do c <- cell (lg_data gr) i j;
  do s <- nth_error (lg_labels gr) i;
  do t <- nth_error (lg_labels gr) j;
  foldM (fun st k => push_chain s t i j k mid den st) (seq 0 c) st.
(** graph.rs:1138-1178: one essential vertex. *)
Definition push_row (gr : lgraph) (m : nat) (st : rawg * list svertex) (i : nat) : option (rawg * list svertex) :=
  do st1 <- foldM (fun st j => push_cell gr i j (Nat.max (m - 2) 1) (m - 1) st) (rng (i + 1) (lg_n_vertices gr)) st;
  push_cell gr i i m (m + 1) st1.
(** graph.rs:1113-1131: number of vertices. *)
Definition sub_n_vertices (gr : lgraph) (m : nat) : nat := lg_n_vertices gr + lg_non_loop gr * Nat.max (m - 2) 1 + lg_loops gr * m.
(** graph.rs:1113-1180: the subdivided graph before the tree is chosen. *)
Definition subdivide (gr : lgraph) (m : nat) : option (rawg * list svertex) :=
  do g0 <- g_new (sub_n_vertices gr m);
  foldM (push_row gr m) (seq 0 (lg_n_vertices gr)) (g0, map Essential (lg_labels gr)).
(** graph.rs:1113-1183 [subdivided_graph_from]; 1109-1111 [from] is the case 2. *)
Definition subdivided_graph_from (gr : lgraph) (n_marked : nat) : option sgraph :=
  let m := if n_marked <? 2 then 2 else n_marked in
  do st <- subdivide gr m;
  do r <- choose_maximal_tree (fst st);
  do l <- action (snd st) (snd r);
  Some (SG (fst r) l (lg_n_vertices gr)).

Section Weighted.
  Context {T : Type} {O : Ops T}.
  (** graph.rs:1667-1671 [struct WeightedSimpleGraph]. *)
  Record wgraph := WG { wg_data : mat T; wg_labels : list string }.
  (** graph.rs:1683-1697: index of a label, registering it if it is new. The two positions are looked up before either is registered. *)
  Definition index_of (labels : list string) (o : option nat) (v : string) : list string * nat :=
    match o with Some i => (labels, i) | None => (labels ++ [v], List.length labels) end.
  (** graph.rs:1677-1700: one entry. *)
  Definition register_weight (st : list string * list (nat * nat * T)) (e : string * string * T) : option (list string * list (nat * nat * T)) :=
    let '(v1, v2, w) := e in
    let labels := fst st in
    if String.eqb v1 v2 then None else
    let p1 := position v1 labels in
    let p2 := position v2 labels in
    let (l1, i1) := index_of labels p1 v1 in
    let (l2, i2) := index_of l1 p2 v2 in
    Some (l2, snd st ++ [(i1, i2, w)]).
  (** graph.rs:1702-1707: [data[(i,j)] = weight; data[(j,i)] = weight]. *)
  Definition set_weight (M : mat T) (e : nat * nat * T) : option (mat T) :=
    let '(i, j, w) := e in do M1 <- mset M i j w; mset M1 j i w.
  (** graph.rs:1674-1713 [WeightedSimpleGraph::from]. *)
  Definition wgraph_from (input : list (string * string * T)) : option wgraph :=
    do st <- foldM register_weight input ([], []);
    do M <- mzero (List.length (fst st)) (List.length (fst st));
    do M' <- foldM set_weight (snd st) M;
    Some (WG M' (fst st)).
  (** graph.rs:1715-1732 [laplacian]: the diagonal receives the row sums, then the other entries change sign. *)
  Definition lap_diag (M : mat T) (i : nat) : option (mat T) :=
    do l <- omapM (fun j => mget M i j) (seq 0 (nr M));
    mset M i i (fold_left tadd l t0).
  Definition lap_neg (M : mat T) (ij : nat * nat) : option (mat T) :=
    if fst ij =? snd ij then Some M
    else do x <- mget M (fst ij) (snd ij); mset M (fst ij) (snd ij) (tmul x (topp t1)).
  Definition laplacian (g : wgraph) : option (mat T) :=
    let n := nr (wg_data g) in
    do M <- foldM lap_diag (seq 0 n) (wg_data g);
    foldM lap_neg (list_prod (seq 0 n) (seq 0 n)) M.
End Weighted.
Arguments wgraph : clear implicits.
