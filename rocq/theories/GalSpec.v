(** Specification of the Euler characteristic of the space of [n] unordered points on a graph given by an edge list (Gal's formula): the
    coefficient of t^n in the power series  prod over vertices v of (1 + (1 - deg v) t)  times  prod over edges of 1 / (1 - t). *)
From Coq Require Import List Arith ZArith String.
Import ListNotations.
Open Scope Z_scope.

(** Formal power series with integer coefficients, and their (Cauchy) product. *)
Definition series := nat -> Z.
Definition zsuml (l : list Z) : Z := fold_right Z.add 0 l.
Definition series_mul (f g : series) : series := fun n => zsuml (map (fun i => f i * g (n - i)%nat) (seq 0 (S n))).
Definition series_one : series := fun n => match n with O => 1 | _ => 0 end.
Definition series_prod (l : list series) : series := fold_right series_mul series_one l.
(** 1 + a t, and 1 / (1 - t) = 1 + t + t^2 + ... *)
Definition linear (a : Z) : series := fun n => match n with O => 1 | S O => a | _ => 0 end.
Definition geometric : series := fun _ => 1.
(** The number of edge ends at a vertex (a loop has two), and the vertices. *)
Definition ends_at (v : string) (e : string * string) : Z := (if String.eqb (fst e) v then 1 else 0) + (if String.eqb (snd e) v then 1 else 0).
Definition degree (es : list (string * string)) (v : string) : Z := zsuml (map (ends_at v) es).
Definition graph_vertices (es : list (string * string)) : list string := nodup string_dec (flat_map (fun e => [fst e; snd e]) es).
Definition gal (es : list (string * string)) : series :=
  series_mul (series_prod (map (fun v => linear (1 - degree es v)) (graph_vertices es))) (series_prod (map (fun _ => geometric) es)).
(** r_0 - r_1 + r_2 - ... *)
Definition alternating (l : list nat) : Z := fold_right (fun r acc => Z.of_nat r - acc) 0 l.
