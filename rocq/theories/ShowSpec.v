(** Specification vocabulary for printed texts: the usual written forms, built with [join]. *)
From Coq Require Import String Ascii List ZArith Bool.
From Verif Require Import RationalModel PermModel LinModel GraphModel LabGraphModel CubeModel ShowModel.
Import ListNotations.
Open Scope nat_scope.
Open Scope list_scope.

Fixpoint join (sep : text) (l : list text) : text :=
  match l with [] => [] | [x] => x | x :: r => x ++ sep ++ join sep r end.

(** A direct sum of cyclic groups: Z^r, then the torsion summands; a rank or multiplicity 1 is not written; the zero group is 0. *)
Definition power (base : text) (n : nat) : text := if n =? 1 then base else base ++ lit "^" ++ show_nat n.
Definition cyclic (d : Z) (n : nat) : text := if n =? 1 then lit "Z_" ++ show_Z d else lit "(" ++ lit "Z_" ++ show_Z d ++ lit ")^" ++ show_nat n.
Definition group_text (r : nat) (ds : list (Z * nat)) : text :=
  match (if r =? 0 then [] else [power (lit "Z") r]) ++ map (fun d => cyclic (fst d) (snd d)) ds with
  | [] => lit "0"
  | l => join (lit " + ") l
  end.
(** Cycle notation. *)
Definition cycle_text (c : list nat) : text := lit "(" ++ join (lit ", ") (map show_nat (match c with [] => [1] | _ => c end)) ++ lit ")".
(** A product of vertices and edges. *)
Definition cube_text (c : list factor) : text := lit "{" ++ join (lit ", ") (map show_factor c) ++ lit "}".
(** A graph: its vertices and the edges [es], by name. *)
Definition graph_text (names : list text) (es : list (text * text)) : text :=
  lit "vertices: " ++ join (lit ", ") names ++ ["010"%char] ++
  lit "edges: " ++ join (lit ", ") (map (fun e => lit "[" ++ fst e ++ lit ", " ++ snd e ++ lit "]") es) ++ ["010"%char].
(** A label without parentheses or commas. *)
Definition plain_label (s : string) : Prop := forall c, In c (lit s) -> c <> "("%char /\ c <> ","%char /\ c <> ")"%char.
(** Lines, each ended by a line feed. *)
Definition unlines (l : list text) : text := concat (map (fun x => x ++ ["010"%char]) l).
(** A formal sum. *)
Definition term_text (first : bool) (c : Z) (b : text) : text :=
  if first then (if (c =? 1)%Z then b else if (c =? -1)%Z then lit "-" ++ b else show_Z c ++ lit "·" ++ b) else lit "(" ++ show_Z c ++ lit ")·" ++ b.
Definition sum_text (l : list (Z * text)) : text :=
  match l with
  | [] => lit "0"
  | t :: r => join (lit " + ") (term_text true (fst t) (snd t) :: map (fun t => term_text false (fst t) (snd t)) r)
  end.
