(** Specification vocabulary for simple graphs: symmetric relations on vertex numbers, paths, trees.  Only the public [contains] is used to
    read a graph. *)
From Coq Require Import List Arith Bool.
From Verif Require Import UtilModel PidModel PermModel PermSpec MatModel GraphModel.
Import ListNotations.
Open Scope nat_scope.

(** Adjacency as seen through [contains], which wants the smaller vertex first. *)
Definition edge (g : rawg) (x y : nat) : bool :=
  match g_contains g (Nat.min x y) (Nat.max x y) with Some b => b | None => false end.

(** Abstract graphs: a boolean relation. *)
Definition same_pair (x y i j : nat) : bool := ((x =? i) && (y =? j)) || ((x =? j) && (y =? i)).
Definition tau (i j x : nat) : nat := if x =? i then j else if x =? j then i else x.
Inductive gop := OpAdd (i j : nat) | OpRemove (i j : nat) | OpSwap (i j : nat) | OpIsolate (i : nat).
Definition a_op (o : gop) (r : nat -> nat -> bool) : nat -> nat -> bool :=
  match o with
  | OpAdd i j => fun x y => same_pair x y i j || r x y
  | OpRemove i j => fun x y => negb (same_pair x y i j) && r x y
  | OpSwap i j => fun x y => r (tau i j x) (tau i j y)
  | OpIsolate i => fun x y => negb (x =? i) && negb (y =? i) && r x y
  end.
(** The calls that are allowed on [n] vertices (the smaller vertex first). *)
Definition op_ok (n : nat) (o : gop) : bool :=
  match o with OpAdd i j | OpRemove i j | OpSwap i j => (i <? j) && (j <? n) | OpIsolate i => i <? n end.
Definition c_op (o : gop) (g : rawg) : option rawg :=
  match o with
  | OpAdd i j => add_edge g i j | OpRemove i j => remove_edge g i j | OpSwap i j => g_swap g i j | OpIsolate i => remove_adj g i
  end.
(** A history of calls on a fresh graph, and its abstract counterpart. *)
Definition run_graph (n : nat) (h : list gop) : option rawg := do g <- g_new n; foldM (fun g o => c_op o g) h g.
Definition run_rel (h : list gop) : nat -> nat -> bool := fold_left (fun r o => a_op o r) h (fun _ _ => false).

(** All unordered pairs below [n]. *)
Definition pairs (n : nat) : list (nat * nat) := flat_map (fun j => map (fun i => (i, j)) (seq 0 j)) (seq 0 n).

(** Paths. *)
Inductive path (r : nat -> nat -> bool) : nat -> nat -> Prop :=
| p_refl x : path r x x
| p_step x y z : path r x y -> r y z = true -> path r x z.
Definition connected (n : nat) (r : nat -> nat -> bool) : Prop := forall x y, x < n -> y < n -> path r x y.

(** Degree, and the graph with a vertex cut out. *)
Definition deg (n : nat) (r : nat -> nat -> bool) (v : nat) : nat := length (filter (r v) (seq 0 n)).
Definition avoiding (v : nat) (r : nat -> nat -> bool) (x y : nat) : bool := negb (x =? v) && negb (y =? v) && r x y.
(** A vertex usable as base point: a leaf, or a branch vertex whose deletion leaves a connected graph. *)
Definition good_base (n : nat) (r : nat -> nat -> bool) (v : nat) : Prop :=
  v < n /\ (deg n r v = 1 \/ (3 <= deg n r v /\ forall x y, x < n -> y < n -> x <> v -> y <> v -> path (avoiding v r) x y)).


(** Every graph a program can build. *)
Inductive made : rawg -> Prop :=
| made_new n g : g_new n = Some g -> made g
| made_op o g g' : made g -> c_op o g = Some g' -> made g'
| made_action p g g' : made g -> built p -> g_action g p = Some g' -> made g'
| made_tree g g' p : made g -> choose_maximal_tree g = Some (g', p) -> made g'.

(** Tree edges as reported by [maximal_tree_contains]; the branch of the child [c] of [i]: the vertices from [c] to before the next child. *)
Definition tree_edge (g : rawg) (i j : nat) : Prop := tree_contains g i j = Some true.
Definition in_branch (g : rawg) (i c l : nat) : Prop := c <= l /\ forall c', c < c' -> tree_edge g i c' -> l < c'.
(** The branch has an edge back to a vertex before [i]. *)
Definition returns_before (g : rawg) (i c : nat) : Prop := exists k l, k < i /\ in_branch g i c l /\ edge g k l = true.
