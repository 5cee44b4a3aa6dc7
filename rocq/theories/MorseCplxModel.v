(** Model of [UdnMorseCplx] (topo_spaces/src/cubical.rs:738-990, 1376-1416): the enumeration of the critical cells of a graph configuration space,
    and the chain complex built from them.  A panic is [None].  The fields are those of [CubicalCplx], so the record [cplx] of CubeModel is used;
    [factor_iter], [dim_of] and the search for a cell are the same code and are taken from there.  Display is not modelled. *)
From Coq Require Import List Arith ZArith Bool.
From Verif Require Import PidModel SnfModel MatModel GraphModel LabGraphModel LinModel UtilModel CubeModel CubePartialModel MorseModel.
Import ListNotations.
Open Scope nat_scope.

Definition pool_t := UtilModel.lset factor.
Definition p_add (s : pool_t) (f : factor) : option pool_t := lset_add f_eqb s f.
Definition p_remove (s : pool_t) (f : factor) : option pool_t := lset_remove f_eqb s f.

(** cubical.rs:808-815: the tree edges of a branch that no vertex of it disrespects, the last one first. *)
Definition unpaid_edges (g : rawg) (prev : list factor) : option (list factor) :=
  let vs := filter is_vertex prev in
  do es <- filterM (fun f => is_in_maximal_tree g f) (filter is_edge prev);
  filterM (fun f => do a <- anyM (fun v => is_disrespected_by v f) vs; Some (negb a)) es.
(** cubical.rs:826-835: from [v], one down, and further down while a factor of the branch is met; [n - 1] on usize. *)
Fixpoint down_free (prev : list factor) (v : nat) : option nat :=
  match v with
  | O => None
  | S w => if existsb (fun f => negb (is_disjoint_from f (FVertex w))) prev then down_free prev w else Some w
  end.
Fixpoint room (prev : list factor) (k v : nat) : option nat :=
  match k with O => Some v | S k' => do v <- down_free prev v; room prev k' v end.
(** cubical.rs:816-838: the smaller of the two bounds ([usize::MAX] is [None]). *)
Definition upper_bound (g : rawg) (prev unpaid : list factor) (r : nat) : option factor :=
  do u1 <- match unpaid with f :: _ => do e <- f_edge f; Some (Some (snd e)) | [] => Some None end;
  do u2 <- room prev r (g_n g);
  Some (FVertex (match u1 with Some u => if u2 <? u then u2 else u | None => u2 end)).
(** cubical.rs:840-852: the factors that may follow. *)
Definition candidate (g : rawg) (prev : list factor) (last ub f : factor) : option bool :=
  if negb (forallb (fun p => is_disjoint_from f p) prev) then Some false else
  if negb (f_gt f last) then Some false else
  do below <- (if f_lt f ub then Some true else if is_edge f then do t <- terminal f; Some (f_lt t ub) else Some false);
  if negb below then Some false else
  match f with
  | FEdge x y => do t <- is_in_maximal_tree g f; Some (if t then existsb (fun v => forallb (fun p => is_disjoint_from p (FVertex v)) prev) (rng (x + 1) y) else true)
  | FVertex _ => Some true
  end.
(** cubical.rs:855-869: the three restrictions; [r] factors are still to come after this one. *)
Definition admitted (g : rawg) (upper : option nat) (n_debts dim r : nat) (f : factor) : option bool :=
  if is_vertex f then Some true else
  if r + 1 =? n_debts then Some false else
  do t <- (if r =? 0 then is_in_maximal_tree g f else Some false);
  if t then Some false else
  Some (negb (match upper with Some u => dim =? u | None => false end)).
(** cubical.rs:807-872: the new branches, without the initial call. *)
Definition next_factors (upper : option nat) (c : cplx) (s : pool_t) (i r : nat) : option (list factor) :=
  let g := c_pool c in
  do prev <- factor_iter c i;
  do unpaid <- unpaid_edges g prev;
  do ub <- upper_bound g prev unpaid r;
  do b <- nth_error (c_data c) i;
  do fs <- lset_iter s;
  do fs <- filterM (candidate g prev (b_val b) ub) fs;
  do d <- dim_of c i;
  filterM (admitted g upper (length unpaid) d r) fs.
(** cubical.rs:904-929: the factors that a chosen factor makes possible. *)
Definition factors_added (g : rawg) (f : factor) : option (list factor) :=
  match f with
  | FVertex v => Some (if v + 1 <? g_n g then [FVertex (v + 1)] else [])
  | FEdge x y =>
      do t <- is_in_maximal_tree g f;
      do vs <- filterM (fun v => do e <- f_flow g (FVertex v); do w <- terminal e; Some (f_eqb w (FVertex x))) (filter (fun v => f_gt (FVertex v) (FVertex x)) (seq 0 (g_n g)));
      Some (map FVertex vs ++ (if t then if y + 1 <? g_n g then [FVertex (y + 1)] else [] else []))
  end.
(** cubical.rs:886-896: complete branches. *)
Definition count_cell (c : cplx) (i : nat) : option cplx :=
  do d <- dim_of c i;
  do k <- nth_error (c_ranks c) d;
  Some (Cplx (c_pool c) (c_data c) (c_first c) (c_final c) (if c_dim c <? d then d else c_dim c) (MatModel.lset (c_ranks c) d (k + 1))).
(** cubical.rs:873-884: the new branches are recorded. *)
Definition grow (c : cplx) (parent : option nat) (fs : list factor) : option cplx :=
  let js := seq (length (c_data c)) (length fs) in
  let new := map (fun f => Branch parent [] f) fs in
  match parent with
  | None => Some (Cplx (c_pool c) (c_data c ++ new) js (c_final c) (c_dim c) (c_ranks c))
  | Some i =>
      do b <- nth_error (c_data c) i;
      Some (Cplx (c_pool c) (MatModel.lset (c_data c) i (Branch (b_parent b) js (b_val b)) ++ new) (c_first c) (c_final c) (c_dim c) (c_ranks c))
  end.
(** cubical.rs:796-940 [expand]; the initial call (the one that finds no data) is made with [parent = None].  With no factor remaining the initial call
    panics in [n_rem_factors - 1], as vertex 0 is always possible. *)
Fixpoint m_expand (upper : option nat) (n_rem : nat) (c : cplx) (parent : option nat) (s : pool_t) : option (cplx * pool_t) :=
  match n_rem with
  | O => None
  | S r =>
      do fs <- match parent with None => lset_iter s | Some i => next_factors upper c s i r end;
      if length fs =? 0 then Some (c, s) else
      let js := seq (length (c_data c)) (length fs) in
      do c <- grow c parent fs;
      if r =? 0 then
        do c <- foldM count_cell js (Cplx (c_pool c) (c_data c) (c_first c) (c_final c ++ js) (c_dim c) (c_ranks c));
        Some (c, s)
      else
        foldM (fun (st : cplx * pool_t) (jf : nat * factor) =>
          do added <- factors_added (c_pool (fst st)) (snd jf);
          do s <- foldM p_add added (snd st);
          do st <- m_expand upper r (fst st) (Some (fst jf)) s;
          do s <- p_add (snd st) (snd jf);
          do s <- foldM p_remove added s;
          Some (fst st, s)) (combine js fs) (c, s)
  end.
(** cubical.rs:760-794 [new_from_simple_graph]. *)
Definition morse_cplx_of (g : rawg) (n : nat) (upper : option nat) : option cplx :=
  if g_n g <? 2 then None else
  do fs <- factors g;
  do s <- p_add (lset_new fs) (FVertex 0);
  do es <- edge_iter g;
  do es <- filterM (fun f => do o <- is_order_respecting f; Some (negb o)) (map (fun e => FEdge (fst e) (snd e)) es);
  do s <- foldM p_add es s;
  do r <- m_expand upper n (Cplx g [] [] [] 0 (repeat 0 (n + 1))) None s;
  Some (fst r).
(** cubical.rs:749-758 [new]. *)
Definition morse_cplx (gr : lgraph) (n : nat) (upper : option nat) : option cplx :=
  do sg <- subdivided_graph_from gr n; morse_cplx_of (sg_data sg) n upper.

(** cubical.rs:461-465 [Cube::from_index], 956-960 [get_cell_from_idx]. *)
Definition cube_at (c : cplx) (i : nat) : option (list factor) := do l <- factor_iter c i; Some (rev l).
(** cubical.rs:985-990 [get_cells_of_dim]. *)
Definition get_cells_of_dim (c : cplx) (d : nat) : option (list (list factor)) :=
  do is <- filterM (fun i => do k <- dim_of c i; Some (k =? d)) (c_final c); omapM (cube_at c) is.
(** cubical.rs:962-974 [get_index_of]: panics when the cell is not found; [cell[0]] panics on the empty cell. *)
Definition m_index_of (c : cplx) (cell : list factor) : option nat := do o <- get_index_of c cell; o.
Section Boundary.
  Variable bd : list factor -> option (list (Z * list factor)).
  (** cubical.rs:976-983 [get_boundary_of]. *)
  Definition get_boundary_of (fuel : nat) (c : cplx) (i : nat) : option (list (Z * list factor)) :=
    do cube <- cube_at c i;
    do b <- bd cube;
    do vs <- omapM (fun x : Z * list factor => do f <- cube_flow bd fuel (c_pool c) (snd x); vmul ideal f (fst x)) b;
    do b <- vsum ideal cube_cmp vs;
    do vs <- omapM (fun x : Z * list factor => b_scale ideal (fst x) (f_sort (snd x))) b;
    vsum ideal cube_cmp vs.
  (** cubical.rs:1398-1403: one cell of the boundary. *)
  Definition put_face (c : cplx) (num : list nat) (i dim : nat) (ms : list (mat Z)) (x : Z * list factor) : option (list (mat Z)) :=
    do j <- m_index_of c (snd x);
    do r <- nth_error num j;
    do k <- nth_error num i;
    do M <- nth_error ms dim;
    do v <- mget M r k;
    do M' <- mset M r k (v + fst x)%Z;
    Some (MatModel.lset ms dim M').
  (** cubical.rs:1394-1407: one cell. *)
  Definition put_cell (fuel : nat) (c : cplx) (num : list nat) (st : list (mat Z) * list (list (list factor))) (i : nat) : option (list (mat Z) * list (list (list factor))) :=
    do b <- get_boundary_of fuel c i;
    do dim <- dim_of c i;
    do ms <- foldM (put_face c num i dim) b (fst st);
    do bs <- nth_error (snd st) dim;
    do cube <- cube_at c i;
    Some (ms, MatModel.lset (snd st) dim (bs ++ [cube])).
  (** cubical.rs:1378-1416 [boundary_map]; the assertion at the end is checked in debug builds. *)
  Definition morse_boundary_map (fuel : nat) (c : cplx) : option (list (mat Z * list (list factor))) :=
    do num <- numbering c;
    do ms <- zero_maps c;
    do zero <- filterM (fun i => do d <- dim_of c i; Some (d =? 0)) (c_final c);
    do z <- hd_error zero;
    do cube <- cube_at c z;
    do pos <- filterM (fun i => do d <- dim_of c i; Some (0 <? d)) (c_final c);
    do st <- foldM (put_cell fuel c num) pos (ms, [cube] :: repeat [] (c_dim c));
    let out := combine (fst st) (snd st) in
    if forallb (fun mb => nc (fst mb) =? length (snd mb)) out then Some out else None.
End Boundary.
