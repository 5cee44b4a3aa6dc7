(** Model of the discretised unordered configuration spaces of topo_spaces/src/cubical.rs and of the cube factors of topo_spaces/src/graph.rs.
    Panics (index out of range, usize underflow, [unwrap] of [None]) are [None].  [slice::sort] is an insertion sort by [lt]; it is only called
    on lists of pairwise disjoint factors, where [lt] is a strict total order and every sort gives the same result.  Display, the labels and
    the tests are not modelled; integer arithmetic is exact. *)
From Coq Require Import List Arith ZArith Bool.
From Verif Require Import PidModel MatModel GraphModel LabGraphModel LinModel.
Import ListNotations.
Open Scope nat_scope.

(** graph.rs:1308-1312 [CubeFactor]. *)
Inductive factor := FEdge (x y : nat) | FVertex (x : nat).

(** graph.rs:1315-1322 [is_disjoint_from]. *)
Definition is_disjoint_from (a b : factor) : bool :=
  match a, b with
  | FEdge w x, FEdge y z => negb (w =? y) && negb (w =? z) && negb (x =? y) && negb (x =? z)
  | FVertex x, FEdge y z => negb (x =? y) && negb (x =? z)
  | FEdge x y, FVertex z => negb (x =? z) && negb (y =? z)
  | FVertex x, FVertex y => negb (x =? y)
  end.
(** graph.rs:1331-1340 [is_edge], [is_vertex]. *)
Definition is_edge (a : factor) : bool := match a with FEdge _ _ => true | FVertex _ => false end.
Definition is_vertex (a : factor) : bool := negb (is_edge a).
(** graph.rs:1342-1354 [edge], [vertex]. *)
Definition f_edge (a : factor) : option (nat * nat) := match a with FEdge x y => Some (x, y) | FVertex _ => None end.
Definition f_vertex (a : factor) : option nat := match a with FEdge _ _ => None | FVertex x => Some x end.
(** graph.rs:1356-1360 [is_order_respecting]; [j - i] on usize. *)
Definition is_order_respecting (a : factor) : option bool :=
  do e <- f_edge a; if fst e <=? snd e then Some (snd e - fst e =? 1) else None.
(** graph.rs:1387-1395 [terminal], [initial]. *)
Definition terminal (a : factor) : option factor := do e <- f_edge a; Some (FVertex (fst e)).
Definition initial (a : factor) : option factor := do e <- f_edge a; Some (FVertex (snd e)).
(** The derived [PartialEq]. *)
Definition f_eqb (a b : factor) : bool :=
  match a, b with FEdge x y, FEdge z w => (x =? z) && (y =? w) | FVertex x, FVertex y => x =? y | _, _ => false end.
(** graph.rs:1412-1417 [get_order]. *)
Definition get_order (a : factor) : nat := match a with FVertex x => x | FEdge x _ => x end.
(** graph.rs:1521-1540 [PartialOrd::partial_cmp]; [<] and [>] are its default methods. *)
Definition f_partial_cmp (a b : factor) : option comparison :=
  if f_eqb a b then Some Eq else
  if negb (is_disjoint_from a b) then None else
  match a, b with
  | FEdge x _, FEdge y _ => Some (x ?= y)
  | FVertex x, FEdge y _ => Some (x ?= y)
  | FEdge x _, FVertex y => Some (x ?= y)
  | FVertex x, FVertex y => Some (x ?= y)
  end.
Definition f_lt (a b : factor) : bool := match f_partial_cmp a b with Some Lt => true | _ => false end.
Definition f_gt (a b : factor) : bool := match f_partial_cmp a b with Some Gt => true | _ => false end.
(** graph.rs:1308 [#[derive(Ord)]]: by variant, then by the fields. *)
Definition f_cmp (a b : factor) : comparison :=
  match a, b with
  | FEdge x y, FEdge z w => match x ?= z with Eq => y ?= w | c => c end
  | FEdge _ _, FVertex _ => Lt
  | FVertex _, FEdge _ _ => Gt
  | FVertex x, FVertex y => x ?= y
  end.

(** [slice::sort], stable and by [lt]. *)
Fixpoint f_insert (x : factor) (l : list factor) : list factor :=
  match l with [] => [x] | y :: t => if f_lt y x then y :: f_insert x t else x :: l end.
Definition f_sort (l : list factor) : list factor := fold_right f_insert [] l.

(** graph.rs:1494-1518 [FactorIter], [RawSimpleGraph::iter]: the vertices, then the edges (1421-1483). *)
Definition factors (g : rawg) : option (list factor) :=
  do es <- edge_iter g; Some (map FVertex (seq 0 (g_n g)) ++ map (fun e => FEdge (fst e) (snd e)) es).

(** cubical.rs:10-42 [Branch]. *)
Record branch := Branch { b_parent : option nat; b_children : list nat; b_val : factor }.
(** cubical.rs:59-67 [CubicalCplx] ([factor_pool] is a [SimpleGraph], of which only the underlying graph is used). *)
Record cplx := Cplx { c_pool : rawg; c_data : list branch; c_first : list nat; c_final : list nat; c_dim : nat; c_ranks : list nat }.

(** cubical.rs:204-225 [CubicalFactorIter]: from a branch up to its root; at most one step per branch. *)
Fixpoint factors_up (fuel : nat) (d : list branch) (i : nat) : option (list factor) :=
  match fuel with
  | O => None
  | S k =>
      do b <- nth_error d i;
      match b_parent b with
      | None => Some [b_val b]
      | Some p => do r <- factors_up k d p; Some (b_val b :: r)
      end
  end.
(** cubical.rs:228-236 [factor_iter], collected. *)
Definition factor_iter (c : cplx) (i : nat) : option (list factor) := factors_up (S (length (c_data c))) (c_data c) i.
(** cubical.rs:188-200 [dim_of]. *)
Fixpoint dim_up (fuel : nat) (d : list branch) (i : nat) : option nat :=
  match fuel with
  | O => None
  | S k =>
      do b <- nth_error d i;
      let here := match b_val b with FEdge _ _ => 1 | FVertex _ => 0 end in
      match b_parent b with
      | Some p => do r <- dim_up k d p; Some (here + r)
      | None => Some (here + 0)
      end
  end.
Definition dim_of (c : cplx) (i : nat) : option nat := dim_up (S (length (c_data c))) (c_data c) i.

(** cubical.rs:77-81 and 112-117: the boundary vertex for [r] factors still to come, and the two filters by it. *)
Definition boundary_vertex (g : rawg) (r : nat) : option factor := if r <=? g_n g then Some (FVertex (g_n g - r)) else None.
Definition skips (f : factor) : option bool :=
  if is_edge f then do o <- is_order_respecting f; Some (negb o) else Some false.
Definition keeps (B f : factor) : option bool :=
  do s <- skips f;
  if s then Some true else if is_disjoint_from f B then Some (f_lt f B) else Some false.

(** Writing to a vector. *)
Definition set_children (d : list branch) (i j : nat) : option (list branch) :=
  do b <- nth_error d i; Some (lset d i (Branch (b_parent b) (b_children b ++ [j]) (b_val b))).
(** cubical.rs:103-109: a complete branch. *)
Definition close_branch (c : cplx) (i : nat) : option cplx :=
  let c := Cplx (c_pool c) (c_data c) (c_first c) (c_final c ++ [i]) (c_dim c) (c_ranks c) in
  do d <- dim_of c i;
  do r <- nth_error (c_ranks c) d;
  Some (Cplx (c_pool c) (c_data c) (c_first c) (c_final c) (if c_dim c <? d then d else c_dim c) (lset (c_ranks c) d (r + 1))).
(** cubical.rs:112-121: the factors that may follow. *)
Definition new_factors (c : cplx) (i r : nat) : option (list factor) :=
  do B <- boundary_vertex (c_pool c) r;
  do fs <- factors (c_pool c);
  do fs <- filterM (keeps B) fs;
  do prev <- factor_iter c i;
  do b <- nth_error (c_data c) i;
  Some (filter (fun f => f_gt f (b_val b)) (filter (fun f => forallb (fun x => is_disjoint_from x f) prev) fs)).
(** cubical.rs:101-130 [expand]. *)
Fixpoint expand (n_rem : nat) (c : cplx) (i : nat) : option cplx :=
  match n_rem with
  | O => close_branch c i
  | S r =>
      do fs <- new_factors c i r;
      foldM (fun c f =>
        let j := length (c_data c) in
        do d <- set_children (c_data c) i j;
        expand r (Cplx (c_pool c) (d ++ [Branch (Some i) [] f]) (c_first c) (c_final c) (c_dim c) (c_ranks c)) j) fs c
  end.
(** cubical.rs:75-98: everything in [udc] after the subdivision. *)
Definition udc_of (g : rawg) (n : nat) : option cplx :=
  if g_n g <? 2 then None else
  match n with
  | O => None
  | S r =>
      do B <- boundary_vertex g r;
      do fs <- factors g;
      do fs <- filterM (keeps B) fs;
      let data := map (fun f => Branch None [] f) fs in
      let first := seq 0 (length data) in
      foldM (fun c i => expand r c i) first (Cplx g data first [] 0 (repeat 0 (n + 1)))
  end.
(** cubical.rs:71-99 [udc]. *)
Definition udc (gr : lgraph) (n : nat) : option cplx :=
  do sg <- subdivided_graph_from gr n; udc_of (sg_data sg) n.

(** cubical.rs:133-141 [get_cell_from_idx]; the outer option is a panic. *)
Definition get_cell_from_idx (c : cplx) (i : nat) : option (option (list factor)) :=
  if existsb (Nat.eqb i) (c_final c) then do l <- factor_iter c i; Some (Some (rev l)) else Some None.
(** [iter().find(|&&idx| self.data[idx].val == f)]. *)
Fixpoint find_branch (d : list branch) (f : factor) (is : list nat) : option (option nat) :=
  match is with
  | [] => Some None
  | i :: t => do b <- nth_error d i; if f_eqb (b_val b) f then Some (Some i) else find_branch d f t
  end.
Fixpoint walk_down (d : list branch) (i : nat) (fs : list factor) : option (option nat) :=
  match fs with
  | [] => Some (Some i)
  | f :: t =>
      do b <- nth_error d i;
      do o <- find_branch d f (b_children b);
      match o with Some j => walk_down d j t | None => Some None end
  end.
(** cubical.rs:163-175 [get_index_of]; [cell[0]] panics on an empty cell unless there is no first branch. *)
Definition get_index_of (c : cplx) (cell : list factor) : option (option nat) :=
  match cell with
  | [] => match c_first c with [] => Some None | _ => None end
  | f :: t => do o <- find_branch (c_data c) f (c_first c); match o with Some i => walk_down (c_data c) i t | None => Some None end
  end.
(** cubical.rs:177-182 [contains]. *)
Definition c_contains (c : cplx) (cell : list factor) : option bool :=
  do o <- get_index_of c cell; Some (match o with Some _ => true | None => false end).
(** cubical.rs:184-186 [n_cells]. *)
Definition n_cells (c : cplx) : nat := length (c_final c).

(** cubical.rs:147-155: the signed faces, in order; [pre] are the factors before, [sign] is [true] for plus. *)
Fixpoint faces (sign : bool) (pre l : list factor) : list (bool * list factor) :=
  match l with
  | [] => []
  | FVertex x :: t => faces sign (pre ++ [FVertex x]) t
  | FEdge x y :: t =>
      (sign, pre ++ FVertex x :: t) :: (negb sign, pre ++ FVertex y :: t) :: faces (negb sign) (pre ++ [FEdge x y]) t
  end.
(** cubical.rs:143-161 [get_boundaries_of]. *)
Definition get_boundaries_of (c : cplx) (i : nat) : option (list (bool * nat)) :=
  do o <- get_cell_from_idx c i;
  do cell <- o;
  omapM (fun sf : bool * list factor => do oi <- get_index_of c (f_sort (snd sf)); do j <- oi; Some (fst sf, j)) (faces true [] cell).

(** cubical.rs:335-340: [numbering] and [counter]. *)
Definition number_step (c : cplx) (st : list nat * list nat) (i : nat) : option (list nat * list nat) :=
  do d <- dim_of c i;
  do k <- nth_error (snd st) d;
  if i <? length (fst st) then Some (lset (fst st) i k, lset (snd st) d (k + 1)) else None.
Definition numbering (c : cplx) : option (list nat) :=
  do st <- foldM (number_step c) (c_final c) (repeat 0 (length (c_data c)), repeat 0 (c_dim c + 1)); Some (fst st).
(** cubical.rs:343-344: the zero matrices. *)
Definition zero_maps (c : cplx) : option (list (mat Z)) :=
  do r0 <- nth_error (c_ranks c) 0;
  do m0 <- mzero 1 r0;
  do ms <- omapM (fun i => do a <- nth_error (c_ranks c) (i - 1); do b <- nth_error (c_ranks c) i; mzero a b) (seq 1 (c_dim c));
  Some (m0 :: ms).
(** cubical.rs:350-353: one signed face. *)
Definition add_face (num : list nat) (i dim : nat) (ms : list (mat Z)) (sb : bool * nat) : option (list (mat Z)) :=
  do r <- nth_error num (snd sb);
  do k <- nth_error num i;
  do M <- nth_error ms dim;
  do v <- mget M r k;
  do M' <- mset M r k (if fst sb then v + 1 else v - 1)%Z;
  Some (lset ms dim M').
(** cubical.rs:347-354: one cell. *)
Definition add_cell (c : cplx) (num : list nat) (ms : list (mat Z)) (i : nat) : option (list (mat Z)) :=
  do bs <- get_boundaries_of c i;
  do dim <- dim_of c i;
  foldM (add_face num i dim) bs ms.
(** cubical.rs:332-358 [boundary_map]: every list of cells in the result is empty. *)
Definition boundary_map (c : cplx) : option (list (mat Z * list (list factor))) :=
  do num <- numbering c;
  do ms <- zero_maps c;
  do pos <- filterM (fun i => do d <- dim_of c i; Some (0 <? d)) (c_final c);
  do ms <- foldM (add_cell c num) pos ms;
  Some (combine ms (repeat [] (c_dim c + 1))).

(** cubical.rs:436 [#[derive(Ord)]] for [Cube]: lexicographic. *)
Fixpoint cube_cmp (a b : list factor) : comparison :=
  match a, b with
  | [], [] => Eq
  | [], _ => Lt
  | _, [] => Gt
  | x :: a', y :: b' => match f_cmp x y with Eq => cube_cmp a' b' | c => c end
  end.
(** The lexicographic [partial_cmp] of a vector of factors. *)
Fixpoint cube_partial_cmp (a b : list factor) : option comparison :=
  match a, b with
  | [], [] => Some Eq
  | [], _ => Some Lt
  | _, [] => Some Gt
  | x :: a', y :: b' => match f_partial_cmp x y with Some Eq => cube_partial_cmp a' b' | c => c end
  end.
(** cubical.rs:519-525: one edge of [Cube::get_boundary]; [b1] is the terminal face, [b2] the initial one. *)
Definition boundary_step (st : list (Z * list factor) * Z) (pre : list factor) (x y : nat) (post : list factor) : option (list (Z * list factor) * Z) :=
  let b1 := f_sort (pre ++ FVertex x :: post) in
  let b2 := f_sort (pre ++ FVertex y :: post) in
  do d <- b_sub ideal cube_cmp b2 b1;
  do d <- vmul ideal d (snd st);
  do v <- vadd ideal cube_cmp (fst st) d;
  Some (v, (snd st * -1)%Z).
Fixpoint boundary_loop (st : list (Z * list factor) * Z) (pre l : list factor) : option (list (Z * list factor) * Z) :=
  match l with
  | [] => Some st
  | FVertex x :: t => boundary_loop st (pre ++ [FVertex x]) t
  | FEdge x y :: t => do st' <- boundary_step st pre x y t; boundary_loop st' (pre ++ [FEdge x y]) t
  end.
(** cubical.rs:516-528 [Cube::get_boundary], comparing cubes by [cube_cmp]. *)
Definition get_boundary (cube : list factor) : option (list (Z * list factor)) :=
  do st <- boundary_loop ([], (-1)%Z) [] cube; Some (fst st).
