(** Specification of the printed cell complexes. *)
From Coq Require Import String Ascii List ZArith Bool.
From Verif Require Import GraphModel CubeModel CubeSpec ShowModel ShowSpec.
Import ListNotations.
Open Scope nat_scope.
Open Scope list_scope.

(** The line of a cell: a tab, its factors, each followed by a comma, in braces; and a comma, except for one cell [z]. *)
Definition cell_line (z l : list factor) : text :=
  ["009"%char] ++ lit "{" ++ concat (map (fun f => show_factor f ++ lit ", ") l) ++ lit "}" ++ if list_eq_dec f_dec l z then [] else lit ", ".
(** For every dimension up to [d] a heading, and the lines of the cells. *)
Definition complex_text (head : nat -> text) (z : list factor) (cells : nat -> list (list factor)) (d : nat) : text :=
  concat (map (fun k => unlines ((show_nat k ++ head k) :: map (cell_line z) (cells k))) (seq 0 (S d))).
