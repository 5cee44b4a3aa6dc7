(** Specification vocabulary for permutations. *)
From Coq Require Import List Arith ZArith Bool Sorted.
From Verif Require Import PidModel PermModel.
Import ListNotations.
Open Scope nat_scope.

(** [f] moves each entry of [l] to the next one, and the last to the first. *)
Definition cycles_along (f : nat -> nat) (l : list nat) : Prop :=
  forall i, i < length l -> f (nth i l 0) = nth (if S i =? length l then 0 else S i) l 0.
(** ... and nothing else. *)
Definition is_cycle_map (f : nat -> nat) (l : list nat) : Prop :=
  cycles_along f l /\ forall x, ~ In x l -> f x = x.

(** Disjoint-cycle normal form: the identity is one empty cycle; otherwise cycles of length at least two, pairwise
    disjoint, each starting at its least point, listed by increasing first point. *)
Definition normal (p : perm) : Prop :=
  p = [[]] \/
  (p <> [] /\ Forall (fun c => 2 <= length c /\ forall x, In x c -> hd 0 c <= x) p /\
   NoDup (concat p) /\ StronglySorted (fun c d => hd 0 c < hd 0 d) p).

Definition bijective (f : nat -> nat) : Prop :=
  (forall x y, f x = f y -> x = y) /\ (forall y, exists x, f x = y).

(** Everything that can be built with the public API (the two-empty-ranges call of [swap] excepted). *)
Inductive built : perm -> Prop :=
| b_identity : built identity
| b_cycle l c : cycle_from l = Some c -> built (from_cycle c)
| b_cyclic a b : built (cyclic_from a b)
| b_disjoint ls cs p : omap cycle_from ls = Some cs -> from_disjoint_cycles cs = Some p -> built p
| b_swap fuel a1 b1 a2 b2 p : a1 < b1 \/ a2 < b2 -> pswap fuel a1 b1 a2 b2 = Some p -> built p
| b_mul p q r : built p -> built q -> pmul p q = Some r -> built r
| b_inverse p r : built p -> pinverse p = Some r -> built r
| b_pow p n r : built p -> ppow p n = Some r -> built r
| b_gen p gens g : built p -> in_terms_of_gens p = Some gens -> In g gens -> built g
| b_product l r : Forall built l -> pproduct l = Some r -> built r.

Fixpoint iter (n : nat) (f : nat -> nat) (x : nat) : nat :=
  match n with 0 => x | S k => f (iter k f x) end.

(** Exchange of the blocks [a1,b1) and [a2,b2) (with b1 <= a2), keeping inner order and the order in between:
    where the element at position i goes. *)
Definition exchange (a1 b1 a2 b2 i : nat) : nat :=
  if (a1 <=? i) && (i <? b1) then i + (b2 - b1)
  else if (b1 <=? i) && (i <? a2) then i + (b2 - a2) - (b1 - a1)
  else if (a2 <=? i) && (i <? b2) then i - (a2 - a1)
  else i.

(** A table is a permutation of 0..length. *)
Definition is_table (p : list nat) : Prop := NoDup p /\ forall x, In x p -> x < length p.
(** Powers of a table by repeated multiplication. *)
Fixpoint cp_pow (p : list nat) (k : nat) : option (list nat) :=
  match k with 0 => Some (cp_identity (length p)) | S j => do r <- cp_pow p j; cp_mul r p end.
