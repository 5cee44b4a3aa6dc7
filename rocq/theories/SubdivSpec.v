(** Specification of the subdivision of a multigraph given by an edge list, for [m] marked points: the vertices and the adjacency of the
    subdivided graph, in terms of the labels the library shows ([vertices_list]). *)
From Coq Require Import List Arith Bool String.
From Verif Require Import LabGraphModel LabGraphSpec.
Import ListNotations.
Open Scope nat_scope.

(** Number of inner vertices on a subdivided edge from [s] to [t], and the denominator of their positions. *)
Definition inner (m : nat) (s t : string) : nat := if String.eqb s t then m else Nat.max (m - 2) 1.
Definition denom (m : nat) (s t : string) : nat := if String.eqb s t then m + 1 else m - 1.
(** The [l]-th inner vertex of the [k]-th edge from [s] to [t]. *)
Definition inner_vertex (m : nat) (s t : string) (k l : nat) : svertex := Redundant s t k l (denom m s t).
(** [s] is mentioned before [t], or they are equal: the order in which the two ends of an edge appear in its inner vertices. *)
Definition not_after (es : list (string * string)) (s t : string) : Prop :=
  exists i j, i <= j /\ nth_error (registered es) i = Some s /\ nth_error (registered es) j = Some t.
(** The vertices: the labels, and [inner] vertices on each of the [mult] edges joining two labels. *)
Inductive is_vertex (es : list (string * string)) (m : nat) : svertex -> Prop :=
| v_label s : mentions es s -> is_vertex es m (Essential s)
| v_inner s t k l : not_after es s t -> k < mult es s t -> 1 <= l <= inner m s t -> is_vertex es m (inner_vertex m s t k l).
(** One step along a subdivided edge. *)
Inductive step (es : list (string * string)) (m : nat) : svertex -> svertex -> Prop :=
| s_first s t k : not_after es s t -> k < mult es s t -> step es m (Essential s) (inner_vertex m s t k 1)
| s_next s t k l : not_after es s t -> k < mult es s t -> 1 <= l < inner m s t -> step es m (inner_vertex m s t k l) (inner_vertex m s t k (S l))
| s_last s t k : not_after es s t -> k < mult es s t -> step es m (Essential t) (inner_vertex m s t k (inner m s t)).
Definition adjacent es m u v : Prop := step es m u v \/ step es m v u.
(** A list of vertices and an adjacency relation on its positions describe the subdivision. *)
Definition describes (es : list (string * string)) (m : nat) (L : list svertex) (r : nat -> nat -> bool) : Prop :=
  NoDup L /\ (forall u, In u L <-> is_vertex es m u) /\
  forall x y u v, nth_error L x = Some u -> nth_error L y = Some v -> (r x y = true <-> adjacent es m u v).
(** Walks of a given number of steps. *)
Inductive walk (es : list (string * string)) (m : nat) : nat -> svertex -> svertex -> Prop :=
| w_nil u : walk es m 0 u u
| w_cons k u v w : walk es m k u v -> adjacent es m v w -> walk es m (S k) u w.
(** A cycle: three or more different vertices in a ring; it has as many edges as vertices. *)
Definition cycle (es : list (string * string)) (m : nat) (c : list svertex) : Prop :=
  NoDup c /\ 3 <= List.length c /\
  forall i u v, nth_error c i = Some u -> nth_error c ((i + 1) mod List.length c) = Some v -> adjacent es m u v.
