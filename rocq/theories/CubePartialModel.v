(** Model of [Cube::get_boundary] (topo_spaces/src/cubical.rs:516-528) when cubes are compared by [partial_cmp], as [Vector]'s addition does
    (alg/src/lin_alg.rs:367, 388-389: [partial_cmp(..).unwrap()]) and as [#[derive(PartialOrd)]] on [Cube] (cubical.rs:436) provides it:
    lexicographically from [CubeFactor::partial_cmp] (graph.rs:1521-1540), which is [None] for different factors that share a vertex.
    Only sums of two vectors occur, so a list of cursors has at most two elements and a sort makes at most one comparison, of the second
    element with the first.  A panic is [None]. *)
From Coq Require Import List Arith ZArith Bool.
From Verif Require Import PidModel LinModel GraphModel CubeModel.
Import ListNotations.
Open Scope nat_scope.

Section P.
  Context {B : Type}.
  Variable pc : B -> B -> option comparison.
  Variable beq : B -> B -> bool.
  Notation cur := ((Z * B) * list (Z * B))%type.
  (** alg/src/lin_alg.rs:367 and 388: [sort_by(|x, y| x.partial_cmp(y).unwrap())] of at most two cursors. *)
  Definition psort (l : list cur) : option (list cur) :=
    match l with
    | [a; b] => do c <- pc (snd (fst b)) (snd (fst a)); Some (match c with Lt => [b; a] | _ => [a; b] end)
    | _ => Some l
    end.
  (** alg/src/lin_alg.rs:371-395: the loop, by the number of cursors left; [merge_by] (330-344, 307-327) compares the new cursor with the old one. *)
  Fixpoint psum (fuel : nat) (l : list cur) : option (list (Z * B)) :=
    match fuel with
    | O => None
    | S k =>
        match l with
        | [] => Some []
        | [(x, t)] =>
            do out <- psum k (take_cursor t);
            Some (if (fst x =? 0)%Z then out else x :: out)
        | [(x, t); (y, u)] =>
            if beq (snd y) (snd x) then
              do l' <- psort (take_cursor t ++ take_cursor u);
              do out <- psum k l';
              Some (if (fst x + fst y =? 0)%Z then out else ((fst x + fst y)%Z, snd x) :: out)
            else
              do l' <- match t with
                       | [] => Some [(y, u)]
                       | z :: t' => do c <- pc (snd z) (snd y); Some (match c with Lt => [(z, t'); (y, u)] | _ => [(y, u); (z, t')] end)
                       end;
              do out <- psum k l';
              Some (if (fst x =? 0)%Z then out else x :: out)
        | _ => None
        end
    end.
  (** alg/src/lin_alg.rs:234-239 [Add]. *)
  Definition padd (v w : list (Z * B)) : option (list (Z * B)) :=
    do l <- psort (take_cursor v ++ take_cursor w); psum (S (length v + length w)) l.
End P.

(** The derived [PartialEq] of cubes. *)
Fixpoint cube_eqb (a b : list factor) : bool :=
  match a, b with [], [] => true | x :: a', y :: b' => f_eqb x y && cube_eqb a' b' | _, _ => false end.
Definition cadd := padd cube_partial_cmp cube_eqb.
(** cubical.rs:519-525: one edge; negation and scaling (lin_alg.rs:248-263) compare nothing. *)
Definition boundary_step_p (st : list (Z * list factor) * Z) (pre : list factor) (x y : nat) (post : list factor) : option (list (Z * list factor) * Z) :=
  let b1 := f_sort (pre ++ FVertex x :: post) in
  let b2 := f_sort (pre ++ FVertex y :: post) in
  do nb1 <- vneg ideal (vfrom b1);
  do d <- cadd (vfrom b2) nb1;
  do d <- vmul ideal d (snd st);
  do v <- cadd (fst st) d;
  Some (v, (snd st * -1)%Z).
Fixpoint boundary_loop_p (st : list (Z * list factor) * Z) (pre l : list factor) : option (list (Z * list factor) * Z) :=
  match l with
  | [] => Some st
  | FVertex x :: t => boundary_loop_p st (pre ++ [FVertex x]) t
  | FEdge x y :: t => do st' <- boundary_step_p st pre x y t; boundary_loop_p st' (pre ++ [FEdge x y]) t
  end.
(** cubical.rs:516-528. *)
Definition get_boundary_p (cube : list factor) : option (list (Z * list factor)) :=
  do st <- boundary_loop_p ([], (-1)%Z) [] cube; Some (fst st).
