(** Specification vocabulary for formal sums, merging and modules. *)
From Coq Require Import List ZArith Bool Sorted.
From Verif Require Import PidModel.
Import ListNotations.
Open Scope Z_scope.

(** A comparison function that decides a total order. *)
Definition total_order {B} (cmp : B -> B -> comparison) : Prop :=
  (forall a b, cmp a b = Eq <-> a = b) /\
  (forall a b, cmp b a = CompOpp (cmp a b)) /\
  (forall a b c, cmp a b = Lt -> cmp b c = Lt -> cmp a c = Lt).

(** Checked arithmetic either gives the exact result or stops the program. *)
Definition exact (chk : Z -> option Z) : Prop := forall z z', chk z = Some z' -> z' = z.

Definition sorted_by {T} (f : T -> T -> comparison) (l : list T) : Prop := StronglySorted (fun a b => f a b <> Gt) l.

Section Vec.
  Context {B : Type}.
  Variable cmp : B -> B -> comparison.
  (** The coefficient of [b]: the sum of the stored coefficients attached to [b]. *)
  Fixpoint coeff (v : list (Z * B)) (b : B) : Z :=
    match v with
    | [] => 0
    | (c, x) :: t => (match cmp x b with Eq => c | _ => 0 end) + coeff t b
    end.
  (** Canonical storage: strictly increasing basis elements (so no repetition), no zero coefficient. *)
  Definition canonical_vec (v : list (Z * B)) : Prop :=
    StronglySorted (fun x y => cmp (snd x) (snd y) = Lt) v /\ Forall (fun x => fst x <> 0) v.
End Vec.

(** Finitely generated abelian groups, concretely: [Z/m1 x ... x Z/mk] with [Z/0 = Z]; elements are integer
    lists, equal when congruent componentwise. *)
Definition geq (ms : list Z) (x y : list Z) : Prop :=
  length x = length ms /\ length y = length ms /\ forall i, (i < length ms)%nat -> (nth i ms 0 | nth i x 0 - nth i y 0).
Fixpoint gadd (x y : list Z) : list Z :=
  match x, y with a :: x', b :: y' => a + b :: gadd x' y' | _, _ => [] end.
Definition gelt (ms x : list Z) : Prop := length x = length ms.
Definition ghom (ms ns : list Z) (f : list Z -> list Z) : Prop :=
  (forall x, gelt ms x -> gelt ns (f x)) /\
  (forall x y, geq ms x y -> geq ns (f x) (f y)) /\
  (forall x y, gelt ms x -> gelt ms y -> geq ns (f (gadd x y)) (gadd (f x) (f y))).
Definition group_iso (ms ns : list Z) : Prop :=
  exists f g, ghom ms ns f /\ ghom ns ms g /\
    (forall x, gelt ms x -> geq ms (g (f x)) x) /\ (forall y, gelt ns y -> geq ns (f (g y)) y).
(** The group described by a free rank and a list of (divisor, multiplicity). *)
Definition group_of (r : nat) (ds : list (Z * nat)) : list Z :=
  repeat 0 r ++ flat_map (fun d => repeat (fst d) (snd d)) ds.
(** Invariant-factor form: divisors greater than one, positive multiplicities, each divisor properly dividing the next. *)
Definition invariant_factors (ds : list (Z * nat)) : Prop :=
  Forall (fun d => 1 < fst d /\ (0 < snd d)%nat) ds /\
  StronglySorted (fun a b => (fst a | fst b) /\ fst a < fst b) ds.
