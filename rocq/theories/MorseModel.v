(** Model of the discrete Morse theory of graph configuration spaces: the maximal-tree methods of [CubeFactor] and the edge paths of
    [RawSimpleGraph] (topo_spaces/src/graph.rs), [Cube::property], [Cube::flow], [Cube::get_ends] (topo_spaces/src/cubical.rs).
    A panic is [None].  Unbounded recursions get a fuel argument and give [None] when it runs out.  A cube is the list of its factors. *)
From Coq Require Import List Arith ZArith Bool.
From Verif Require Import PidModel SnfModel MatModel GraphModel LinModel CubeModel CubePartialModel EdgePathModel.
Import ListNotations.
Open Scope nat_scope.

(** graph.rs:1324-1329 [is_in_maximal_tree]. *)
Definition is_in_maximal_tree (g : rawg) (a : factor) : option bool :=
  match a with FEdge x y => tree_contains g x y | FVertex _ => Some true end.
(** graph.rs:1362-1368 [is_disrespected_by]: a vertex strictly between the ends of an edge. *)
Definition is_disrespected_by (a e : factor) : option bool :=
  do ij <- f_edge e; do k <- f_vertex a; Some ((fst ij <? k) && (k <? snd ij)).
(** graph.rs:1397-1408 [CubeFactor::flow]. *)
Definition f_flow (g : rawg) (a : factor) : option factor :=
  match a with
  | FVertex v =>
      if v =? 0 then None else
      do o <- findM (fun i => do c <- g_contains g i v; if c then tree_contains g i v else Some false) (rev (seq 0 v));
      do t <- o; Some (FEdge t v)
  | FEdge _ _ => None
  end.
(** graph.rs:1370-1385 [is_blocked]. *)
Definition occupies (w f : factor) : option bool :=
  if is_vertex f && f_eqb f w then Some true else
  if is_edge f then do t <- terminal f; if f_eqb t w then Some true else do i <- initial f; Some (f_eqb i w) else Some false.
Definition is_blocked (g : rawg) (cube : list factor) (a : factor) : option bool :=
  match a with
  | FVertex v => if v =? 0 then Some true else do e <- f_flow g a; do w <- terminal e; anyM (occupies w) cube
  | FEdge _ _ => None
  end.

(** cubical.rs:428-433 [MorseProp]. *)
Inductive morse := Critical | Collapsible (i : nat) | Redundant (i : nat).
(** cubical.rs:533-536: the filter of [property]. *)
Definition movable (g : rawg) (cube : list factor) (f : factor) : option bool :=
  if is_vertex f then do b <- is_blocked g cube f; Some (negb b) else
  do t <- is_in_maximal_tree g f;
  if t then
    do o <- is_order_respecting f;
    if o then Some true else allM (fun x => if is_vertex x then do d <- is_disrespected_by x f; Some (negb d) else Some true) cube
  else Some false.
Fixpoint property_from (g : rawg) (cube : list factor) (i : nat) (l : list factor) : option morse :=
  match l with
  | [] => Some Critical
  | f :: t => do m <- movable g cube f; if m then Some (if is_vertex f then Redundant i else Collapsible i) else property_from g cube (i + 1) t
  end.
(** cubical.rs:530-543 [property]. *)
Definition property (g : rawg) (cube : list factor) : option morse := property_from g cube 0 cube.

(** cubical.rs:546-569 [get_ends]. *)
Definition get_ends (cube : list factor) : option (list factor * list factor) :=
  if length (filter is_edge cube) =? 1 then
    Some (map (fun f => match f with FVertex x => FVertex x | FEdge v _ => FVertex v end) cube,
          map (fun f => match f with FVertex x => FVertex x | FEdge _ w => FVertex w end) cube)
  else None.

(** cubical.rs:475-484: the vertices of the other factors. *)
Definition other_vertices (u : factor) (cube : list factor) : list factor :=
  flat_map (fun f => match f with FEdge x y => [FVertex y; FVertex x] | FVertex x => [FVertex x] end) (filter (fun f => negb (f_eqb f u)) cube).
Section Flow.
  (** [get_boundary], and the comparison of cubes used when vectors are added: the derived [Ord], or the derived [PartialOrd]. *)
  Variable bd : list factor -> option (list (Z * list factor)).
  (** cubical.rs:467-514 [Cube::flow]. *)
  Fixpoint cube_flow (fuel : nat) (g : rawg) (cube : list factor) : option (list (Z * list factor)) :=
    match fuel with
    | O => None
    | S k =>
        do p <- property g cube;
        match p with
        | Collapsible _ => Some vzero
        | Critical => b_scale ideal 1 cube
        | Redundant i =>
            do u <- nth_error cube i;
            do e <- f_flow g u;
            do ini <- initial e;
            do ter <- terminal e;
            if forallb (fun v => f_lt v ter || f_lt ini v) (other_vertices ini cube) then cube_flow k g (f_sort (lset cube i ter))
            else
              do b <- bd (f_sort (lset cube i e));
              do c <- vindex cube_cmp b cube;
              do b <- (if (c =? 1)%Z then do nb <- vneg ideal b; vadd_basis ideal cube_cmp nb cube
                       else if (c =? -1)%Z then vadd_basis ideal cube_cmp b cube else None);
              do vs <- omapM (fun x : Z * list factor => do f <- cube_flow k g (snd x); vmul ideal f (fst x)) b;
              vsum ideal cube_cmp vs
        end
    end.
End Flow.
(** The two instances.  With the derived [PartialOrd] (see CubePartialModel.v) the boundary of every cube of dimension two or more panics;
    the additions after it are those of the total order, which differ from it only by not panicking. *)
Definition flow_ord := cube_flow get_boundary.
Definition flow_partial := cube_flow get_boundary_p.

(** [min_by] over the unblocked factors: the first of the smallest by the derived [Ord] (graph.rs:358-362). *)
Definition f_min (best : option (nat * factor)) (x : nat * factor) : option (nat * factor) :=
  match best with
  | None => Some x
  | Some b => match f_cmp (snd b) (snd x) with Gt => Some x | _ => best end
  end.
Definition smallest_unblocked (g : rawg) (cube : list factor) : option (option (nat * factor)) :=
  do l <- filterM (fun x : nat * factor => do b <- is_blocked g cube (snd x); Some (negb b)) (combine (seq 0 (length cube)) cube);
  Some (fold_left f_min l None).
(** graph.rs:357-383 [get_edge_path_recc]; [forward] is the const generic.  The deque is a list. *)
Fixpoint edge_path_rec (fuel : nat) (g : rawg) (forward : bool) (cube : list factor) (p : list oedge) : option (list factor * list oedge) :=
  match fuel with
  | O => None
  | S k =>
      do o <- smallest_unblocked g cube;
      match o with
      | None => Some (cube, p)
      | Some (i, u) =>
          do e <- f_flow g u;
          do w <- terminal e;
          do uv <- f_vertex u;
          do wv <- f_vertex w;
          edge_path_rec k g forward (lset cube i w) (if forward then p ++ [(uv, wv)] else (wv, uv) :: p)
      end
  end.
(** graph.rs:385-416 [get_edge_path]. *)
Definition get_edge_path (fuel : nat) (g : rawg) (c : list factor) : option path :=
  let start := map (fun f => match f with FVertex x => FVertex x | FEdge _ x => FVertex x end) c in
  let end_ := map (fun f => match f with FVertex x => FVertex x | FEdge x _ => FVertex x end) c in
  do f <- find is_edge c;
  do e <- f_edge f;
  do r <- edge_path_rec fuel g false start [(snd e, fst e)];
  do r <- edge_path_rec fuel g true end_ (snd r);
  reduce (map (fun e => [e]) (snd r)).
(** graph.rs:418-435 [get_edge_path_to_from_base_pt]. *)
Definition get_edge_path_to_from_base_pt (fuel : nat) (g : rawg) (c : list factor) (to_not_from : bool) : option path :=
  if forallb is_vertex c then
    do r <- edge_path_rec fuel g true c [];
    do p <- reduce (map (fun e => [e]) (snd r));
    if to_not_from then Some p else inverse p
  else None.
