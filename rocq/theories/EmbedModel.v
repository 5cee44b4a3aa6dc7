(** Model of topo_spaces/src/graph.rs:1191-1210 [SimpleGraph::modify_embedding].
    Simplifications: [f64] is the real numbers; a [HashMap] is the list of its pairs (each key once, in no meaningful order); a
    [ConstVector<f64, N>] is a list (ConstModel); a missing label or a different number of labels is [None] (a panic). *)
From Coq Require Import String List Arith Bool Reals.
From Verif Require Import PidModel MatModel NumModel ConstModel GraphModel LabGraphModel.
Import ListNotations.
Open Scope nat_scope.

(** graph.rs:206-213, 229-234 [#[derive(PartialEq)]] of [VertexVector] and [SimpleVertex]; positions are compared as rational numbers. *)
Definition svertex_eqb (u v : svertex) : bool :=
  match u, v with
  | Essential s, Essential t => String.eqb s t
  | Redundant s t k a b, Redundant s' t' k' a' b' => String.eqb s s' && String.eqb t t' && (k =? k') && (a * b' =? a' * b)
  | _, _ => false
  end.
(** [HashMap::get] and [HashMap::insert]. *)
Fixpoint hm_get {V} (m : list (string * V)) (s : string) : option V :=
  match m with [] => None | (k, v) :: t => if String.eqb k s then Some v else hm_get t s end.
Definition hm_insert {V} (m : list (svertex * V)) (k : svertex) (v : V) : list (svertex * V) :=
  filter (fun e => negb (svertex_eqb (fst e) k)) m ++ [(k, v)].
(** alg/src/commutative/rational_impl.rs:91-97 [Into<f64>] (a positive fraction). *)
Definition ratio (num den : nat) : R := (INR num / INR den)%R.
(** graph.rs:1196-1206: the place of one vertex. *)
Definition place (embedding : list (string * list R)) (v : svertex) : option (list R) :=
  match v with
  | Essential s => hm_get embedding s
  | Redundant s t _ num den =>
      do a <- hm_get embedding s;
      do b <- hm_get embedding t;
      Some (cv_add a (cv_mul (cv_sub b a) (ratio num den)))
  end.
(** graph.rs:1191-1210 [modify_embedding]. *)
Definition modify_embedding (g : sgraph) (embedding : list (string * list R)) : option (list (svertex * list R)) :=
  if sg_ess g =? List.length embedding then
    foldM (fun out v => do p <- place embedding v; Some (hm_insert out v p)) (sg_list g) []
  else None.
