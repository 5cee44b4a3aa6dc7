(** Specification vocabulary for the complex of critical cells: leaves and branching vertices of the maximal tree, and distances in it. *)
From Coq Require Import List Arith.
From Verif Require Import PidModel GraphModel GraphSpec CubeModel CubeSpec MorseModel MorseSpec.
Import ListNotations.
Open Scope nat_scope.

(** The tree is directed away from the base point: [tree_edge g v w] says that [w] hangs at [v]. *)
Definition leaf (g : rawg) (v : nat) : Prop := v < g_n_vertices g /\ forall w, ~ tree_edge g v w.
Definition branching (g : rawg) (v : nat) : Prop := exists i j, i <> j /\ tree_edge g v i /\ tree_edge g v j.
(** A vertex at which a critical edge can start: the tree branches, or an edge outside the tree leads further out. *)
Definition special (g : rawg) (v : nat) : Prop := branching g v \/ exists w, v < w /\ edge g v w = true /\ ~ tree_edge g v w.
(** The vertices on the way from [z] (excluded) out to [w] (included), the last one first. *)
Inductive descends (g : rawg) (z : nat) : list nat -> nat -> Prop :=
| d_here : descends g z [] z
| d_out l p w : descends g z l p -> tree_edge g p w -> descends g z (w :: l) w.
(** No leaf is closer than n - 1 steps to a special vertex it hangs below. *)
Definition roomy (g : rawg) (n : nat) : Prop := forall z l w, special g z -> descends g z l w -> l <> [] -> leaf g w -> n <= length l + 1.
(** A critical cell of [n] pairwise disjoint closed cells. *)
Definition critical (g : rawg) (n : nat) (c : list factor) : Prop := configuration g n c /\ forall f, In f c -> ~ mobile g c f.
