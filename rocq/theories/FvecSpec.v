(** Specification for the numbers of cells of a configuration complex: binomial coefficients, matchings. *)
From Coq Require Import List Arith Bool.
From Verif Require Import GraphModel GraphSpec.
Import ListNotations.
Open Scope nat_scope.

(** Binomial coefficients (Pascal's triangle). *)
Fixpoint binom (n k : nat) : nat :=
  match k, n with
  | 0, _ => 1
  | S _, 0 => 0
  | S k', S n' => binom n' k' + binom n' k
  end.
(** All ways of choosing [k] of the elements of a list, in the order of the list. *)
Fixpoint choose {A} (k : nat) (l : list A) : list (list A) :=
  match k, l with
  | 0, _ => [[]]
  | S _, [] => []
  | S k', x :: t => map (cons x) (choose k' t) ++ choose k t
  end.
(** The edges of a graph, each once, smaller end first. *)
Definition graph_edges (g : rawg) : list (nat * nat) :=
  filter (fun e => (fst e <? snd e) && edge g (fst e) (snd e)) (list_prod (seq 0 (g_n_vertices g)) (seq 0 (g_n_vertices g))).
(** Two edges have no common end; a matching is a set of edges that pairwise have none. *)
Definition apart (e f : nat * nat) : bool :=
  negb (fst e =? fst f) && negb (fst e =? snd f) && negb (snd e =? fst f) && negb (snd e =? snd f).
Fixpoint is_matching (l : list (nat * nat)) : bool :=
  match l with [] => true | e :: t => forallb (apart e) t && is_matching t end.
Definition n_matchings (g : rawg) (k : nat) : nat := length (filter is_matching (choose k (graph_edges g))).
