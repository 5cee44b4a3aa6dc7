(** Specification vocabulary for labelled graphs: an edge list is a list of unordered pairs of labels. *)
From Coq Require Import List Arith Bool String.
Import ListNotations.
Open Scope nat_scope.

(** Two edges with the same end vertices, in either order. *)
Definition same_ends (e f : string * string) : bool :=
  (String.eqb (fst e) (fst f) && String.eqb (snd e) (snd f)) || (String.eqb (fst e) (snd f) && String.eqb (snd e) (fst f)).
(** How many edges of the list join [a] and [b]. *)
Definition mult (es : list (string * string)) (a b : string) : nat := List.length (filter (same_ends (a, b)) es).
Definition is_loop (e : string * string) : bool := String.eqb (fst e) (snd e).
Definition loops (es : list (string * string)) : list (string * string) := filter is_loop es.
Definition non_loops (es : list (string * string)) : list (string * string) := filter (fun e => negb (is_loop e)) es.
(** The edges that are not parallel to an earlier one: one representative for every pair of joined vertices. *)
Fixpoint firsts (seen es : list (string * string)) : list (string * string) :=
  match es with
  | [] => []
  | e :: t => if existsb (same_ends e) seen then firsts (e :: seen) t else e :: firsts (e :: seen) t
  end.
Definition classes (es : list (string * string)) : list (string * string) := firsts [] es.
(** The labels an edge list mentions. *)
Definition mentions (es : list (string * string)) (v : string) : Prop := exists e, In e es /\ (fst e = v \/ snd e = v).
(** The weight of a pair of labels in a list of weighted pairs: that of the last entry for this pair, zero if there is none. *)
Definition weight {T} (zero : T) (input : list (string * string * T)) (a b : string) : T :=
  fold_left (fun acc e => if same_ends (a, b) (fst e) then snd e else acc) input zero.
