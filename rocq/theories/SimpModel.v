(** Model of topo_spaces/src/simplicial/mod_impl.rs (and the types of simplicial/mod.rs): simplicial complexes as bit-set cells.
    [None] is a panic.  [usize] counts are unbounded except in [n_cells_of_dim], where every arithmetic result passes through
    [cu] (usize) or [ci] (i64).  The debug [println!] of [is_connected] is not modelled. *)
From Coq Require Import List Arith ZArith NArith Bool.
From Verif Require Import UtilModel PidModel LinModel MatModel SnfModel.
Import ListNotations.
Open Scope nat_scope.

(** simplicial/mod.rs:38-44 [struct SimplicialCell]. *)
Record cell := Cell { c_v : list N; c_size : nat; c_dim : option nat }.

(** mod_impl.rs:80-92 [SimplicialCell::dim]. *)
Definition cell_dim (v : list N) : option (option nat) :=
  do s <- sum_ones v; Some (match s with O => None | S d => Some d end).
(** mod_impl.rs:94-100 [resize]. *)
Definition cell_resize (c : cell) (n : nat) : cell :=
  Cell (c_v c ++ repeat 0%N ((n + 63) / 64 - length (c_v c))) n (c_dim c).
(** mod_impl.rs:39-51 [cone]. *)
Definition cone (c : cell) (x : nat) : option cell :=
  let c := if c_size c <=? x then cell_resize c (x + 1) else c in
  do v <- upd (c_v c) (x / 64) (fun w => N.lor w (mask x));
  Some (Cell v (c_size c) (Some (match c_dim c with Some d => S d | None => 0 end))).
(** mod_impl.rs:17-23: equal neighbours in the sorted list. *)
Fixpoint has_equal_neighbours (l : list nat) : bool :=
  match l with a :: ((b :: _) as t) => (a =? b) || has_equal_neighbours t | _ => false end.
(** mod_impl.rs:7-37 [SimplicialCell::new]. *)
Definition cell_new (s : nat) (raw : list nat) : option cell :=
  let l := sort_by Nat.compare raw in
  match l with
  | [] => None
  | x :: _ =>
      if (s =? 0) || (s <? x) || has_equal_neighbours l then None else
      do c <- foldM cone l (Cell (repeat 0%N (s / 64 + 1)) s (Some 0));
      do d <- cell_dim (c_v c); Some (Cell (c_v c) (c_size c) d)
  end.
(** [xs.iter().zip(ys)] with a word operation, truncated to the shorter. *)
Fixpoint zipw {A} (f : N -> N -> A) (a b : list N) : list A :=
  match a, b with x :: a', y :: b' => f x y :: zipw f a' b' | _, _ => [] end.
(** mod_impl.rs:53-65 [join]: words beyond the zipped prefix of [self] are lost, those of [cell] are appended. *)
Definition cell_join (a b : cell) : option cell :=
  let v := zipw N.lor (c_v a) (c_v b) in
  let v := v ++ skipn (length v) (c_v b) in
  do d <- cell_dim v; Some (Cell v (c_size a) d).
(** mod_impl.rs:67-78 [intersection]. *)
Definition cell_inter (a b : cell) : option cell :=
  let v := zipw N.land (c_v a) (c_v b) in do d <- cell_dim v; Some (Cell v (c_size a) d).
(** mod_impl.rs:102-112 [is_connected_with], [is_empty], [contains]. *)
Definition cell_meets (a b : cell) : bool := existsb (fun t => t) (zipw (fun x y => negb (N.land x y =? 0)%N) (c_v a) (c_v b)).
Definition cell_is_empty (a : cell) : bool := forallb (fun x => (x =? 0)%N) (c_v a).
Definition cell_contains (a b : cell) : bool := forallb (fun t => t) (zipw (fun x y => (N.lor x y =? x)%N) (c_v a) (c_v b)).
(** mod_impl.rs:345-353 [PartialEq]: lists of words of different length are compared on the common prefix. *)
Definition cell_eqb (a b : cell) : bool := forallb (fun t => t) (zipw N.eqb (c_v a) (c_v b)).
(** mod_impl.rs:355-374 [Ord]. *)
Definition dim_cmp (a b : option nat) : comparison :=
  match a, b with
  | None, None => Eq | None, Some _ => Lt | Some _, None => Gt | Some x, Some y => x ?= y
  end.
Definition first_diff (l : list comparison) : comparison :=
  match find (fun c => match c with Eq => false | _ => true end) l with Some c => c | None => Eq end.
Definition cell_cmp (a b : cell) : comparison :=
  match dim_cmp (c_dim a) (c_dim b) with
  | Eq => first_diff (zipw N.compare (c_v a) (c_v b))
  | c => c
  end.

(** mod_impl.rs:131 [(idx..).find(..)]: first set bit at or after [idx]; indexing past the last word panics. *)
Fixpoint find_bit (fuel : nat) (v : list N) (idx : nat) : option nat :=
  match fuel with
  | O => None
  | S f => do w <- nth_error v (idx / 64);
           if N.odd (N.shiftr w (N.of_nat (idx mod 64))) then Some idx else find_bit f v (S idx)
  end.
(** mod_impl.rs:124-135: the remaining [k] rounds of the loop. *)
Fixpoint face_loop (k : nat) (c : cell) (d idx : nat) : option (list cell) :=
  match k with
  | O => Some []
  | S k' =>
      do i <- find_bit (64 * length (c_v c) + 1 - idx) (c_v c) idx;
      do v <- upd (c_v c) (i / 64) (fun w => N.land w (N.lnot (mask i) 64));
      do r <- face_loop k' c d (S i);
      Some (Cell v (c_size c) (Some d) :: r)
  end.
(** mod_impl.rs:114-137 [get_face]; [d-1] underflows (panics) for a point. *)
Definition get_face (c : cell) : option (list cell) :=
  match c_dim c with
  | Some (S n) => face_loop (n + 2) c n 0
  | _ => None
  end.

Section Cplx.
  Context {T : Type}.
  Variable eqb : T -> T -> bool.

  (** simplicial/mod.rs:13-19 [struct Simplex]. *)
  Record simplex := Simplex { s_dim : nat; s_labels : list T }.
  (** mod_impl.rs:143-148 [Simplex::from]: [len() - 1] underflows on the empty list. *)
  Definition simplex_from (l : list T) : option simplex :=
    match l with [] => None | _ :: t => Some (Simplex (length t) l) end.

  (** simplicial/mod.rs:46-51 [struct SimplicialCplx]. *)
  Record cplx := Cplx { k_size : nat; k_max : list cell; k_labels : list T }.
  (** mod_impl.rs:154-160 [new]. *)
  Definition cplx_new : cplx := Cplx 0 [] [].
  (** mod_impl.rs:162-171 [new_from_zero_skeleton]. *)
  Definition new_from_zero_skeleton (labels : list T) : option cplx :=
    do cs <- omapM (fun x => cell_new 1 [x]) (seq 0 (length labels)); Some (Cplx (length labels) cs labels).

  (** [self.vertices_labeling.iter().position(|l| label == *l)] *)
  Fixpoint label_pos (l : list T) (x : T) : option nat :=
    match l with [] => None | y :: r => if eqb x y then Some 0 else option_map S (label_pos r x) end.

  (** mod_impl.rs:180-186 [get_simplex]. *)
  Definition get_simplex (K : cplx) (c : cell) : option simplex :=
    do cs <- omapM (fun i => do p <- cell_new (i + 1) [i]; Some (cell_contains c p, i)) (seq 0 (c_size c));
    do ls <- omapM (fun bi => nth_error (k_labels K) (snd bi)) (filter fst cs);
    do d <- c_dim c; Some (Simplex d ls).

  (** mod_impl.rs:190-196: the loop adding missing vertices. *)
  Definition add_vertex (K : cplx) (x : T) : option cplx :=
    if existsb (eqb x) (k_labels K) then Some K else
    let n := S (k_size K) in
    do p <- cell_new n [n - 1];
    Some (Cplx n (k_max K ++ [p]) (k_labels K ++ [x])).
  (** mod_impl.rs:188-222 [attach]. *)
  Definition attach (K : cplx) (s : simplex) : option cplx :=
    do K1 <- foldM add_vertex (s_labels s) K;
    do ix <- omapM (label_pos (k_labels K1)) (s_labels s);
    do c <- cell_new (k_size K1) ix;
    if existsb (fun m => cell_contains m c) (k_max K1) then Some K1
    else Some (Cplx (k_size K1) (filter (fun m => negb (cell_contains c m)) (k_max K1) ++ [c]) (k_labels K1)).
  (** mod_impl.rs:173-178 [new_from]. *)
  Definition new_from (s : simplex) : option cplx := attach cplx_new s.

  (** mod_impl.rs:224-226 [get_labeled_zero_skeleton], 266-269 [n_vertices]. *)
  Definition zero_skeleton (K : cplx) : list T := k_labels K.
  Definition n_vertices (K : cplx) : nat := length (k_labels K).

  (** mod_impl.rs:228-234 [dim]: [max().unwrap()] panics on the empty complex. *)
  Definition cplx_dim (K : cplx) : option nat :=
    match k_max K with
    | [] => None
    | l => Some (list_max (map (fun c => match c_dim c with Some d => d | None => 0 end) l))
    end.

  (** mod_impl.rs:244-263: the loop of [is_connected]. *)
  Definition dim_eqb (a b : option nat) : bool := match dim_cmp a b with Eq => true | _ => false end.
  Fixpoint connected_loop (fuel : nat) (K : cplx) (join : cell) (prev : option nat) : option bool :=
    match fuel with
    | O => None
    | S f =>
        do join <- foldM cell_join (filter (fun c => cell_meets c join) (k_max K)) join;
        match k_size K with
        | O => None
        | S m =>
            if dim_eqb (c_dim join) (Some m) then Some true
            else if dim_eqb (c_dim join) prev then Some false
            else connected_loop f K join (c_dim join)
        end
    end.
  (** mod_impl.rs:236-264 [is_connected]; every round but the last enlarges the join, so [k_size + 1] rounds suffice. *)
  Definition cplx_is_connected (K : cplx) : option bool :=
    match k_max K with
    | [] => Some true
    | c :: _ => connected_loop (S (k_size K)) K c (c_dim c)
    end.

  (** [Vec::dedup]: drops every element equal to the one kept before it. *)
  Fixpoint dedup_from (x : cell) (l : list cell) : list cell :=
    match l with
    | [] => [x]
    | y :: t => if cell_eqb y x then dedup_from x t else x :: dedup_from y t
    end.
  Definition dedup (l : list cell) : list cell := match l with [] => [] | x :: t => dedup_from x t end.
  (** mod_impl.rs:323-341 [get_i_cells]. *)
  Definition get_i_cells (K : cplx) (i : nat) (up : option (list cell)) : option (list cell) :=
    do ds <- omapM (fun c => do d <- c_dim c; Some (d =? i, c)) (k_max K);
    let cs := map snd (filter fst ds) in
    match up with
    | None => Some cs
    | Some up =>
        do fs <- omapM get_face up;
        Some (dedup (sort_by cell_cmp (cs ++ concat fs)))
    end.

  (** mod_impl.rs:401-412: one column; the state is the matrix and the sign. *)
  Definition boundary_col (lower : list cell) (j : nat) (D : mat Z) (c : cell) : option (mat Z) :=
    do bd <- get_face c;
    do r <- foldM (fun (st : mat Z * Z) (ix : nat * cell) =>
              if existsb (fun b => cell_eqb b (snd ix)) bd
              then do D' <- mset (fst st) (fst ix) j (snd st); Some (D', (- snd st)%Z)
              else Some st)
            (combine (seq 0 (length lower)) lower) (D, 1%Z);
    Some (fst r).
  Definition boundary_matrix (lower upper : list cell) : option (mat Z) :=
    do D <- mzero (length lower) (length upper);
    foldM (fun D jc => boundary_col lower (fst jc) D (snd jc)) (combine (seq 0 (length upper)) upper) D.

  (** mod_impl.rs:391-423: the loop over the dimensions, from [n] down. *)
  Fixpoint bm_loop (K : cplx) (n : nat) (n_cells : list cell) (acc : list (mat Z * list simplex)) : option (list (mat Z * list simplex)) :=
    do b <- omapM (get_simplex K) n_cells;
    match n with
    | O => do Z0 <- mzero 1 (length n_cells); Some ((Z0, b) :: acc)
    | S m =>
        do lower <- get_i_cells K m (Some n_cells);
        do D <- boundary_matrix lower n_cells;
        bm_loop K m lower ((D, b) :: acc)
    end.
  (** mod_impl.rs:387-424 [boundary_map]. *)
  Definition boundary_map (K : cplx) : option (list (mat Z * list simplex)) :=
    do d <- cplx_dim K;
    do top <- get_i_cells K d None;
    bm_loop K d top [].

  (** ** n_cells_of_dim *)
  Variables cu ci : Z -> option Z.
  (** [(a..=b).product()] *)
  Definition range_product (a b : Z) : option Z :=
    fold_left (fun acc x => do p <- acc; cu (p * x)%Z) (zrange a (b + 1)) (Some 1%Z).
  (** mod_impl.rs:275-281 [binomial]. *)
  Definition binomial (x y : nat) : option Z :=
    if x <? y then Some 0%Z else
    do p <- range_product (Z.of_nat x - Z.of_nat y + 1)%Z (Z.of_nat x);
    do q <- range_product 1%Z (Z.of_nat y);
    if (q =? 0)%Z then None else Some (p / q)%Z.
  (** mod_impl.rs:288-319: the remaining values of [i]. *)
  Fixpoint ncells_loop (fuel : nat) (K : cplx) (dim : nat) (is : list nat) (sign : bool) (out : Z) : option Z :=
    match is with
    | [] => Some out
    | i :: is =>
        let largest := Cell (repeat (2 ^ 64 - 1)%N (k_size K / 64 + 1)) (k_size K) (Some (k_size K)) in
        do tuples <- tuple_iter_collect fuel (k_max K) i;
        do all <- omapM (fun cells => foldM cell_inter cells largest) tuples;
        match filter (fun c => negb (cell_is_empty c)) all with
        | [] => Some out
        | inter =>
            do bs <- omapM (fun c => do d <- c_dim c; binomial (d + 1) (dim + 1)) inter;
            do sum <- fold_left (fun acc x => do s <- acc; cu (s + x)%Z) bs (Some 0%Z);
            do out' <- ci (if sign then out + sum else out - sum)%Z;
            ncells_loop fuel K dim is (negb sign) out'
        end
    end.
  (** mod_impl.rs:271-321 [n_cells_of_dim]; [sum as i64] of a value beyond 2^63 is rejected by [ci] instead of wrapping;
      the final [out as usize] wraps a negative number. *)
  Definition n_cells_of_dim (fuel : nat) (K : cplx) (dim : nat) : option Z :=
    do out <- ncells_loop fuel K dim (seq 1 (length (k_max K))) true 0%Z; Some (out mod 2 ^ 64)%Z.

  (** A history: [simplicial_cplx!{..}] attaches the simplices in turn (simplicial/mod.rs:53-71). *)
  Definition attach_all (hist : list (list T)) : option cplx :=
    foldM (fun K l => do s <- simplex_from l; attach K s) hist cplx_new.
End Cplx.
Arguments simplex : clear implicits.
Arguments cplx : clear implicits.
