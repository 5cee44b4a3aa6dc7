(** Specification vocabulary for the discrete Morse theory of graph configuration spaces: graphs with a chosen maximal tree, blocked
    vertices, and the tree edges respected by a configuration.  Everything is read off the graph through [contains] and
    [maximal_tree_contains]. *)
From Coq Require Import List Arith Bool Sorted.
From Verif Require Import PidModel GraphModel GraphSpec LabGraphModel CubeModel CubeSpec.
Import ListNotations.
Open Scope nat_scope.

(** The graphs the Morse theory is used on: connected, with the maximal tree chosen by [choose_maximal_tree] or by the subdivision. *)
Inductive arranged : rawg -> Prop :=
| ar_tree g h p : made g -> connected (g_n_vertices g) (edge g) -> choose_maximal_tree g = Some (h, p) -> arranged h
| ar_sub es gr m sg : graph_from es = Some gr -> subdivided_graph_from gr m = Some sg ->
    connected (g_n_vertices (sg_data sg)) (edge (sg_data sg)) -> arranged (sg_data sg).

(** A vertex that belongs to one of the closed cells. *)
Definition occupied (c : list factor) (v : nat) : Prop := exists f, In f c /\ In v (verts f).
(** A vertex is blocked when it is the base point or the next vertex towards the base point is occupied. *)
Definition blocked (g : rawg) (c : list factor) (v : nat) : Prop := v = 0 \/ exists w, tree_edge g w v /\ occupied c w.
(** A tree edge is respected when no vertex factor lies strictly between its ends. *)
Definition respected (g : rawg) (c : list factor) (x y : nat) : Prop := tree_edge g x y /\ forall v, In (FVertex v) c -> ~ (x < v < y).
(** The factors that make a cell non-critical. *)
Definition mobile (g : rawg) (c : list factor) (f : factor) : Prop :=
  match f with FVertex v => ~ blocked g c v | FEdge x y => respected g c x y end.
(** The factor at position [i] is the first mobile one. *)
Definition first_mobile (g : rawg) (c : list factor) (i : nat) (f : factor) : Prop :=
  nth_error c i = Some f /\ mobile g c f /\ forall j f', j < i -> nth_error c j = Some f' -> ~ mobile g c f'.

(** The tree starts with a path of [n] vertices. *)
Definition stem (g : rawg) (n : nat) : Prop := n <= g_n_vertices g /\ forall k j, k + 1 < n -> tree_edge g k j -> j = k + 1.
(** Points: distinct vertices of the graph. *)
Definition points (g : rawg) (l : list nat) : Prop := NoDup l /\ forall v, In v l -> v < g_n_vertices g.
(** A sequence of single moves towards the base point along tree edges. *)
Definition inwards (g : rawg) (w : list (nat * nat)) : Prop := forall u v, In (u, v) w -> tree_edge g v u.
(** All other factors lie on one side of the tree edge from [u] to [w]. *)
Definition free (c : list factor) (w u : nat) : Prop :=
  forall f, In f c -> f <> FVertex u -> f <> FEdge w u -> (forall v, In v (verts f) -> v < w) \/ (forall v, In v (verts f) -> u < v).
