(** Reference semantics of matrix views: a view is a height, a width and, for each position, the (row, column) of the
    underlying matrix it shows. *)
From Coq Require Import List Arith NArith Bool.
From Verif Require Import PidModel ViewModel.
Import ListNotations.
Open Scope nat_scope.

(** Both components fit in the 16-bit fields of the fat pointer. *)
Definition small (p : nat * nat) : Prop := (N.of_nat (fst p) < 2 ^ 16 /\ N.of_nat (snd p) < 2 ^ 16)%N.

Record rview := { rv_h : nat; rv_w : nat; rv_at : nat -> nat -> nat * nat }.
Definition rv_full (n m : nat) : rview := {| rv_h := n; rv_w := m; rv_at := fun i j => (i, j) |}.
Definition rv_transpose (v : rview) : rview := {| rv_h := rv_w v; rv_w := rv_h v; rv_at := fun i j => rv_at v j i |}.
(** Half-open interval denoted by a range on an axis of the given length. *)
Definition interval (r : range) (len : nat) : nat * nat :=
  match r with
  | RIndex i => (i, i + 1) | RFull => (0, len) | RRange a b => (a, b) | RFrom a => (a, len)
  | RIncl a b => (a, b + 1) | RTo b => (0, b) | RToIncl b => (0, b + 1)
  end.
(** Restriction to two intervals; defined when both are well-formed and inside, and the view being restricted is not empty. *)
Definition rv_sub (v : rview) (rows cols : range) : option rview :=
  let (r0, r1) := interval rows (rv_h v) in
  let (c0, c1) := interval cols (rv_w v) in
  if (r0 <=? r1) && (r1 <=? rv_h v) && (c0 <=? c1) && (c1 <=? rv_w v) && (0 <? rv_h v) && (0 <? rv_w v)
  then Some {| rv_h := r1 - r0; rv_w := c1 - c0; rv_at := fun i j => rv_at v (r0 + i) (c0 + j) |}
  else None.
Fixpoint rv_run (v : rview) (ops : list vop) : option rview :=
  match ops with
  | [] => Some v
  | VSub r c :: t => match rv_sub v r c with Some v' => rv_run v' t | None => None end
  | VTranspose :: t => rv_run (rv_transpose v) t
  end.
