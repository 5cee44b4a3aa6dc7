(** Specification vocabulary for unordered discretised configuration spaces: sets of pairwise disjoint closed cells of a graph, and the
    cellular boundary of a product of intervals. *)
From Coq Require Import List Arith ZArith Bool Sorted.
From Verif Require Import PidModel MatModel MatSpec GraphModel GraphSpec CubeModel.
Import ListNotations.
Open Scope nat_scope.

(** The vertices of a closed cell of a graph; two cells are disjoint when they share none. *)
Definition verts (f : factor) : list nat := match f with FEdge x y => [x; y] | FVertex x => [x] end.
Definition disjoint (a b : factor) : Prop := forall v, In v (verts a) -> ~ In v (verts b).
(** The closed cells of a graph: its vertices, and its edges written with the smaller end first. *)
Definition closed_cell (g : rawg) (f : factor) : Prop :=
  match f with FVertex x => x < g_n_vertices g | FEdge x y => x < y /\ edge g x y = true end.
(** [n] pairwise disjoint closed cells. *)
Definition configuration (g : rawg) (n : nat) (l : list factor) : Prop :=
  length l = n /\ Forall (closed_cell g) l /\ ForallOrdPairs disjoint l.
(** The number of edges: the dimension of the product of the cells. *)
Definition dimension (l : list factor) : nat := length (filter (fun f => match f with FEdge _ _ => true | FVertex _ => false end) l).
(** Listed by increasing first vertex. *)
Definition low (f : factor) : nat := match f with FEdge x _ => x | FVertex x => x end.
Definition listed (l : list factor) : Prop := StronglySorted (fun a b => low a < low b) l.

(** Equality of finite sets of cells. *)
Definition f_dec (a b : factor) : {a = b} + {a <> b}.
Proof. decide equality; apply Nat.eq_dec. Defined.
Definition same_cells (a b : list factor) : bool :=
  forallb (fun x => if in_dec f_dec x b then true else false) a && forallb (fun x => if in_dec f_dec x a then true else false) b.
Definition delta (a b : list factor) : Z := if same_cells a b then 1%Z else 0%Z.
(** The incidence number of [f] in the boundary of [c], the factors of [c] being ordered as listed: the k-th edge (counting from 0) contributes
    with sign (-1)^k its first end minus its second end. *)
Definition sign (k : nat) : Z := if Nat.even k then 1%Z else (-1)%Z.
Definition replaced (c : list factor) (i v : nat) : list factor := firstn i c ++ FVertex v :: skipn (S i) c.
Definition incidence (c f : list factor) : Z :=
  sum (length c) (fun i => match nth i c (FVertex 0) with
                           | FEdge x y => (sign (dimension (firstn i c)) * (delta (replaced c i x) f - delta (replaced c i y) f))%Z
                           | FVertex _ => 0%Z
                           end).

(** The [k]-dimensional cells of a complex, in the order of its complete branches. *)
Definition cells_of_dim (c : cplx) (k : nat) : list (list factor) :=
  filter (fun l => dimension l =? k) (flat_map (fun i => match get_cell_from_idx c i with Some (Some l) => [l] | _ => [] end) (c_final c)).
