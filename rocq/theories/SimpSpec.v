(** Specification vocabulary for simplicial complexes: label lists and sublists only, no bit sets. *)
From Coq Require Import List Arith ZArith Bool.
Import ListNotations.

(** [a] is obtained from [b] by deleting some elements (order kept). *)
Inductive subseq {A} : list A -> list A -> Prop :=
| sub_nil : subseq [] []
| sub_skip x a b : subseq a b -> subseq a (x :: b)
| sub_keep x a b : subseq a b -> subseq (x :: a) (x :: b).

(** [removed i l]: [l] without its [i]-th element. *)
Definition removed {A} (i : nat) (l : list A) : list A := firstn i l ++ skipn (S i) l.

(** (-1)^k *)
Definition alt (k : nat) : Z := if Nat.even k then 1%Z else (-1)%Z.

Section S.
  Context {T : Type} (eqb : T -> T -> bool).
  (** The vertices in the order in which they first occur. *)
  Definition skeleton (hist : list (list T)) : list T :=
    fold_left (fun acc x => if existsb (eqb x) acc then acc else acc ++ [x]) (concat hist) [].
  (** What a user may attach: nonempty simplices without repeated vertices. *)
  Definition valid_hist (hist : list (list T)) : Prop := Forall (fun s => s <> [] /\ NoDup s) hist.
  (** A cell of dimension [d] of the complex generated by [hist]: [d+1] of the vertices of one attached simplex, listed in
      the order of the skeleton. *)
  Definition is_cell (hist : list (list T)) (d : nat) (c : list T) : Prop :=
    subseq c (skeleton hist) /\ length c = S d /\ exists s, In s hist /\ incl c s.
  (** [L] lists every cell of dimension [d] exactly once. *)
  Definition lists_cells (hist : list (list T)) (d : nat) (L : list (list T)) : Prop :=
    NoDup L /\ forall c, In c L <-> is_cell hist d c.
  (** The dimension: the largest length of an attached simplex, minus one. *)
  Definition has_dim (hist : list (list T)) (d : nat) : Prop :=
    (exists s, In s hist /\ length s = S d) /\ forall s, In s hist -> length s <= S d.
  (** Two vertices in one attached simplex are joined; paths are chains of such steps. *)
  Inductive joined (hist : list (list T)) : T -> T -> Prop :=
  | j_refl x : joined hist x x
  | j_step x y z s : joined hist x y -> In s hist -> In y s -> In z s -> joined hist x z.
End S.
