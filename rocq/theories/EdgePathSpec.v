(** Specification vocabulary for edge paths, independent of the model: the partially commutative group generated by the
    oriented edges, in which disjoint edges commute and an edge cancels with its reverse. *)
From Coq Require Import List Arith Relations Permutation.
Import ListNotations.
Open Scope nat_scope.

Notation ed := (nat * nat)%type.
Definition reverse (e : ed) : ed := (snd e, fst e).
Definition shares (e f : ed) : Prop := fst e = fst f \/ fst e = snd f \/ snd e = fst f \/ snd e = snd f.
Definition disjoint (e f : ed) : Prop := ~ shares e f.

(** Two words are homotopic when one is reached from the other by exchanging neighbouring disjoint edges and by inserting or
    deleting an edge followed by its reverse. *)
Inductive homotopic : list ed -> list ed -> Prop :=
| h_swap : forall u v e f, disjoint e f -> homotopic (u ++ e :: f :: v) (u ++ f :: e :: v)
| h_cancel : forall u v e, homotopic (u ++ e :: reverse e :: v) (u ++ v)
| h_refl : forall u, homotopic u u
| h_sym : forall u v, homotopic u v -> homotopic v u
| h_trans : forall u v w, homotopic u v -> homotopic v w -> homotopic u w.

(** The word obtained by travelling backwards. *)
Definition backwards (w : list ed) : list ed := rev (map reverse w).

(** A step: edges that can be travelled simultaneously. *)
Inductive parallel : list ed -> Prop :=
| par_nil : parallel []
| par_cons : forall e s, Forall (disjoint e) s -> parallel s -> parallel (e :: s).

(** Every edge of a step shares an endpoint with an edge of the step before it: nothing can be moved one step earlier. *)
Inductive greedy : list (list ed) -> Prop :=
| gr_nil : greedy []
| gr_one : forall s, greedy [s]
| gr_cons : forall s t r, Forall (fun e => exists f, In f s /\ shares f e) t -> greedy (t :: r) -> greedy (s :: t :: r).

(** Tokens on vertices: [c] lists the position of each token.  One edge moves the token at its start to its empty end. *)
Inductive moves1 : list nat -> ed -> list nat -> Prop :=
| mv1 : forall l r a b, ~ In b (l ++ a :: r) -> moves1 (l ++ a :: r) (a, b) (l ++ b :: r).
Inductive moves : list nat -> list ed -> list nat -> Prop :=
| mv_nil : forall c, moves c [] c
| mv_cons : forall c c' c'' e w, moves1 c e c' -> moves c' w c'' -> moves c (e :: w) c''.
