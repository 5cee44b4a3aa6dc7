(** Model of topo_spaces/src/graph.rs:247-933 and 1437-1483 [RawSimpleGraph]: simple graphs on the vertices 0..n-1 stored as a bit pool.
    [usize] is unbounded; [None] is a panic of a debug build.  An [AdjacentVerticesIter] borrows the graph, so it is modelled by the list it
    yields (it is consumed without interleaved updates; every element panics or none does, so laziness is not observable). *)
From Coq Require Import List Arith Bool.
From Verif Require Import UtilModel PidModel PermModel MatModel SnfModel.
Import ListNotations.
Open Scope nat_scope.

(** std [Iterator::filter] with a test that may panic. *)
Fixpoint filterM {A} (f : A -> option bool) (l : list A) : option (list A) :=
  match l with [] => Some [] | x :: t => do b <- f x; do r <- filterM f t; Some (if b then x :: r else r) end.

(** graph.rs:248-253 [struct RawSimpleGraph]. *)
Record rawg := RawG { g_data : pool; g_n : nat; g_tree : bool }.

(** graph.rs:256-262 [new]: [n_vertices - 1] underflows for 0. *)
Definition g_new (n : nat) : option rawg :=
  if n =? 0 then None else Some (RawG (pool_new (n * (n - 1) / 2)) n false).
(** graph.rs:265-268 [raw_idx]. *)
Definition raw_idx (i j : nat) : option nat := if i <? j then Some (j * (j - 1) / 2 + i) else None.
(** graph.rs:270-272 [add_edge], 274-276 [remove_edge], 278-280 [contains]. *)
Definition add_edge (g : rawg) (i j : nat) : option rawg :=
  do k <- raw_idx i j; do d <- pool_add (g_data g) k; Some (RawG d (g_n g) (g_tree g)).
Definition remove_edge (g : rawg) (i j : nat) : option rawg :=
  do k <- raw_idx i j; do d <- pool_remove (g_data g) k; Some (RawG d (g_n g) (g_tree g)).
Definition g_contains (g : rawg) (i j : nat) : option bool :=
  do k <- raw_idx i j; pool_contains (g_data g) k.
(** graph.rs:282-284 [n_edges], 286-288 [n_vertices]. *)
Definition g_n_edges (g : rawg) : nat := pool_n_elements (g_data g).
Definition g_n_vertices (g : rawg) : nat := g_n g.

(** graph.rs:452-473 [AdjacentVerticesIter::next]: the test for one value of [curr]. *)
Definition adj_test (g : rawg) (v c : nat) : option bool :=
  if v <? c then g_contains g v c
  else if c <? v then g_contains g c v
  else Some false.
(** graph.rs:477-481 [adjacent_vertices_iter] collected; 353-355 [get_adjacent_vertices]. *)
Definition adj (g : rawg) (v : nat) : option (list nat) := filterM (adj_test g v) (seq 0 (g_n g)).

(** graph.rs:298-299, 309, 818: [if i < j {(i,j)} else {(j,i)}] *)
Definition ordered (i j : nat) : nat * nat := if i <? j then (i, j) else (j, i).
(** graph.rs:302-303, 823: [for_each(|&(i,j)| self.add_edge(i,j))]. *)
Definition add_edges (l : list (nat * nat)) (g : rawg) : option rawg := foldM (fun g e => add_edge g (fst e) (snd e)) l g.
(** graph.rs:308-311 [remove_edges_adjacent_to]. *)
Definition remove_adj (g : rawg) (i : nat) : option rawg :=
  do a <- adj g i; foldM (fun g e => remove_edge g (fst e) (snd e)) (map (ordered i) a) g.
(** graph.rs:290-306 [swap]. *)
Definition g_swap (g : rawg) (i j : nat) : option rawg :=
  if negb ((i <? j) && (j <? g_n g)) then None else
  do isotopy <- g_contains g i j;
  do ai <- adj g i;
  let tmp_i := map (ordered j) (filter (fun v => negb (v =? j)) ai) in
  do aj <- adj g j;
  let tmp_j := map (ordered i) (filter (fun v => negb (v =? i)) aj) in
  do g1 <- remove_adj g i;
  do g2 <- remove_adj g1 j;
  do g3 <- add_edges tmp_i g2;
  do g4 <- add_edges tmp_j g3;
  if isotopy then add_edge g4 i j else Some g4.
(** graph.rs:313-316 [degree_of]. *)
Definition degree_of (g : rawg) (v : nat) : option nat :=
  if g_n g <=? v then None else do a <- adj g v; Some (length a).

(** graph.rs:344-349: the closure applied to each neighbour; state = (visited, new_vertices with the top first). *)
Definition visit (st : pool * list nat) (w : nat) : option (pool * list nat) :=
  do b <- pool_contains (fst st) w;
  if b then Some st else do p <- pool_add (fst st) w; Some (p, w :: snd st).
(** graph.rs:335-350: the loop; each round pops one vertex, and a vertex is pushed once, so [S n] rounds suffice. *)
Fixpoint conn_loop (fuel : nat) (g : rawg) (st : pool * list nat) : option bool :=
  match fuel with
  | O => None
  | S f =>
      if pool_is_full (fst st) then Some true else
      match snd st with
      | [] => Some false
      | v :: rest =>
          do a <- adj g v;
          do st' <- foldM visit a (fst st, rest);
          conn_loop f g st'
      end
  end.
(** graph.rs:329-351 [is_connected]. *)
Definition g_is_connected (g : rawg) : option bool :=
  do a <- adj g 0;
  do p <- pool_add_all (pool_new (g_n g)) a;
  do a2 <- adj g 0;
  conn_loop (S (S (g_n g))) g (p, rev a2).

(** graph.rs:924-934 [maximal_tree_contains]. *)
Definition tree_contains (g : rawg) (i j : nat) : option bool :=
  if negb (g_tree g) then None else
  do c <- g_contains g i j;
  if negb c then Some false else
  do b <- anyM (fun k => g_contains g k j) (rng (i + 1) j);
  Some (negb b).
(** graph.rs:318-327 [degree_in_maximal_tree]. *)
Definition tree_degree (g : rawg) (v : nat) : option nat :=
  if g_n g <=? v then None else
  do a <- adj g v;
  do l <- filterM (fun w => tree_contains g (Nat.min v w) (Nat.max v w)) a; Some (length l).

(** graph.rs:519-530 [gen_action_by]. *)
Definition g_gen_action (g : rawg) (p : perm) : option rawg :=
  if perm_eq_dec p identity then Some g
  else do u <- unfixed p; match u with [i; j] => g_swap g i j | _ => None end.
(** alg/src/non_commutative.rs:27-32 [action_by]; graph.rs:533-546 [<<], [<<=]. *)
Definition g_action (g : rawg) (p : perm) : option rawg :=
  do gens <- in_terms_of_gens p; foldM g_gen_action gens g.

(** graph.rs:810-836: the loop of [choose_base_point] over the remaining candidates. *)
Fixpoint base_loop (g : rawg) (cands : list nat) : option (rawg * perm) :=
  match cands with
  | [] => None
  | i :: rest =>
      do d <- degree_of g i;
      if d =? 1 then do g' <- g_swap g 0 i; do p <- transposition 0 i; Some (g', p) else
      do d2 <- degree_of g i;
      if 3 <=? d2 then
        do a <- adj g i;
        let tmp := map (ordered i) a in
        do g1 <- remove_adj g i;
        match tmp with
        | [] => None
        | e :: _ =>
            do g2 <- add_edge g1 (fst e) (snd e);
            do connected <- g_is_connected g2;
            do g3 <- add_edges tmp g2;
            if connected then
              if i =? 0 then Some (g3, identity)
              else do g' <- g_swap g3 0 i; do p <- transposition 0 i; Some (g', p)
            else base_loop g3 rest
        end
      else base_loop g rest
  end.
(** graph.rs:806-840 [choose_base_point]. *)
Definition choose_base_point (g : rawg) : option (rawg * perm) :=
  do d <- degree_of g 0;
  if d =? 1 then Some (g, identity) else base_loop g (seq 0 (g_n g)).

(** graph.rs:843-853 [fetch_right_and_swap]. *)
Definition fetch_right (g : rawg) (i j : nat) : option (rawg * option perm) :=
  do a <- adj g i;
  match find (fun k => j <? k) a with
  | Some k => do p <- transposition j k; do g' <- g_action g p; Some (g', Some p)
  | None => Some (g, None)
  end.
(** graph.rs:860-867: the inner loop, [i] counting down. *)
Fixpoint dfs_inner (j : nat) (is : list nat) (g : rawg) (p : perm) : option (rawg * perm) :=
  match is with
  | [] => Some (g, p)
  | i :: rest =>
      do c <- g_contains g i j;
      if c then Some (g, p) else
      do r <- fetch_right g i j;
      match snd r with
      | Some q => do p' <- pmul q p; Some (fst r, p')
      | None => dfs_inner j rest (fst r) p
      end
  end.
(** graph.rs:855-872 [choose_maximal_tree_by_depth_first]. *)
Definition dfs_tree (g : rawg) : option (rawg * perm) :=
  foldM (fun st j => dfs_inner j (rev (seq 0 j)) (fst st) (snd st)) (rng 1 (g_n g)) (g, identity).

(** graph.rs:888 and 897: an edge from an ancestor side into the range. *)
Definition separating (g : rawg) (i a b : nat) : option bool :=
  anyM (fun k => anyM (fun l => g_contains g k l) (rng a b)) (seq 0 i).
(** graph.rs:882-899: the branches (start, end, flag) at [i]; [js] are the starts of the later ones. *)
Fixpoint branches_from (g : rawg) (i start : nat) (js : list nat) : option (list (nat * nat * bool)) :=
  match js with
  | [] => do s <- separating g i start (g_n g); Some [(start, g_n g, s)]
  | j :: js => do s <- separating g i start j; do r <- branches_from g i j js; Some ((start, j, s) :: r)
  end.
(** graph.rs:902-916: the block moves; the state is [end] and the moves so far. *)
Definition branch_move (st : nat * list perm) (b : nat * nat * bool) : option (nat * list perm) :=
  let '(s, e, _) := b in
  let fin := fst st in
  do q <- (if fin =? e then Some identity else pswap (S fin) s e e fin);
  Some (fin - (e - s), snd st ++ [q]).
(** graph.rs:878-920: one vertex. *)
Definition reorder_at (st : rawg * perm) (i : nat) : option (rawg * perm) :=
  let g := fst st in
  do d <- degree_of g i;
  if d <=? 2 then Some st else
  do cs <- filterM (fun j => g_contains g i j) (rng (i + 2) (g_n g));
  do js <- filterM (fun j => tree_contains g i j) cs;
  do bs <- branches_from g i (i + 1) js;
  do mv <- foldM branch_move (filter (fun b => snd b) (rev bs)) (g_n g, []);
  do action <- pproduct (snd mv);
  do g' <- g_action g action;
  do p' <- pmul action (snd st);
  Some (g', p').
(** graph.rs:874-922 [modify_ordering_of_the_branches] ([n - 1] cannot underflow: there is no graph without vertices). *)
Definition reorder (g : rawg) : option (rawg * perm) :=
  foldM reorder_at (seq 0 (g_n g - 1)) (g, identity).

(** graph.rs:787-804 [choose_maximal_tree]. *)
Definition choose_maximal_tree (g : rawg) : option (rawg * perm) :=
  do r1 <- choose_base_point g;
  do p1 <- pmul (snd r1) identity;
  do r2 <- dfs_tree (fst r1);
  do p2 <- pmul (snd r2) p1;
  let g2 := RawG (g_data (fst r2)) (g_n (fst r2)) true in
  do r3 <- reorder g2;
  do p3 <- pmul (snd r3) p2;
  Some (fst r3, p3).

(** graph.rs:1454-1468: the loop of [EdgeIter::next]: [None] is a panic, the inner option the new state. *)
Fixpoint edge_advance (fuel : nat) (g : rawg) (c : nat * nat) : option (option (nat * nat)) :=
  match fuel with
  | O => None
  | S f =>
      let c' := if fst c =? 0 then (snd c, snd c + 1) else (fst c - 1, snd c) in
      if g_n g <=? snd c' then Some None
      else do b <- g_contains g (fst c') (snd c'); if b then Some (Some c') else edge_advance f g c'
  end.
(** graph.rs:1447-1471 [EdgeIter::next] iterated. *)
Fixpoint edges_from (fuel : nat) (g : rawg) (c : nat * nat) : option (list (nat * nat)) :=
  match fuel with
  | O => None
  | S f => do o <- edge_advance (S (g_n g * g_n g)) g c;
           match o with None => Some [c] | Some c' => do r <- edges_from f g c'; Some (c :: r) end
  end.
(** graph.rs:1476-1483 [edge_iter] collected. *)
Definition edge_iter (g : rawg) : option (list (nat * nat)) :=
  if g_n g <? 2 then Some [] else edges_from (S (g_n g * g_n g)) g (0, 1).
