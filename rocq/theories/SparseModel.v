(** Model of alg/src/lin_alg/sparse_matrix_impl.rs and the two types of alg/src/lin_alg.rs.
    Nodes are immutable after creation and shared through [Rc]; sharing is invisible, so a node is a tree.
    Simplifications: an [Iter] is represented by the list of items it yields (the iterators are consumed to the end and pure);
    [binary_search_by] is modelled by its documented result on a vector strictly sorted by key (anything else is [None], so the
    theorems also show the vectors are sorted), and by a panic when the vector holds an [End] node (the comparison calls
    [start_node_idx]). *)
From Coq Require Import List Arith Bool.
From Verif Require Import PidModel MatModel SnfModel.
Import ListNotations.
Open Scope nat_scope.

Section Sparse.
  Context {T : Type} {OT : Ops T}.

  (** alg/src/lin_alg.rs:26-34 [enum SparseNode]; [Entry (i,j) v right down]. *)
  Inductive node : Type :=
  | Start : nat -> node -> node
  | Entry : nat * nat -> T -> node -> node -> node
  | End : node.
  (** alg/src/lin_alg.rs:18-23 [struct SparseMatrix]. *)
  Record sparse := Sparse { s_rows : list node; s_cols : list node; s_size : nat * nat; s_transposed : bool }.

  (** alg/src/lin_alg/sparse_matrix_impl.rs:31-37 [start_node_idx], :23-29 [start_ptr], :40-45 [start_ref]. *)
  Definition start_node_idx (x : node) : option nat := match x with Start i _ => Some i | _ => None end.
  Definition start_ptr (x : node) : option node := match x with Start _ r => Some r | _ => None end.

  (** :65-84 [m.cols.iter_mut().find(|node| node.start_node_idx()==j)] and the creation of the new node;
      returns the updated columns and the new node. *)
  Fixpoint add_to_cols (cols : list node) (i j : nat) (val : T) (curr : node) : option (list node * node) :=
    match cols with
    | [] => let nn := Entry (i, j) val curr End in Some ([Start j nn], nn)
    | c :: cs =>
        do k <- start_node_idx c;
        if k =? j then
          do p <- start_ptr c;
          let nn := Entry (i, j) val curr p in Some (Start j nn :: cs, nn)
        else
          do r <- add_to_cols cs i j val curr; Some (c :: fst r, snd r)
    end.

  (** :55-88 one row: [for j in (0..size.1).rev()]. *)
  Definition from_row (f : nat -> nat -> option T) (i : nat) (st : list node * node) (j : nat) : option (list node * node) :=
    match f i j with
    | None => Some st
    | Some val => add_to_cols (fst st) i j val (snd st)
    end.
  Definition is_end (x : node) : bool := match x with End => true | _ => false end.
  (** [sort_by] on the start index. *)
  Fixpoint insert_start (x : node) (l : list node) : option (list node) :=
    match l with
    | [] => Some [x]
    | y :: t =>
        do a <- start_node_idx x; do b <- start_node_idx y;
        if a <=? b then Some (x :: y :: t) else do r <- insert_start x t; Some (y :: r)
    end.
  Fixpoint sort_start (l : list node) : option (list node) :=
    match l with [] => Some [] | x :: t => do r <- sort_start t; insert_start x r end.

  (** alg/src/lin_alg/sparse_matrix_impl.rs:49-110 [SparseMatrix::from((size, f))]. *)
  Definition sparse_from (n m : nat) (f : nat -> nat -> option T) : option sparse :=
    do rc <- foldM (fun rc i =>
               do cc <- foldM (from_row f i) (rev (seq 0 m)) (snd rc, End);
               Some (if is_end (snd cc) then fst rc else fst rc ++ [Start i (snd cc)], fst cc))
             (rev (seq 0 n)) ([], []);
    do rows <- sort_start (fst rc);
    do cols <- sort_start (snd rc);
    match rows with
    | [] => Some (Sparse (rows ++ [End]) (cols ++ [End]) (n, m) false)
    | _ => Some (Sparse rows cols (n, m) false)
    end.

  (** alg/src/lin_alg/sparse_matrix_impl.rs:173-193 [Iter::next], run to the end; [dir = true] follows the row. *)
  Fixpoint iterate (dir : bool) (x : node) : option (list (nat * T)) :=
    match x with
    | Start _ _ => None
    | Entry idx val r d =>
        if dir then do l <- iterate dir r; Some ((snd idx, val) :: l)
        else do l <- iterate dir d; Some ((fst idx, val) :: l)
    | End => Some []
    end.
  (** :122-156 the search common to [row_iter] and [col_iter]. *)
  Fixpoint ssorted (l : list nat) : bool := match l with a :: ((b :: _) as t) => (a <? b) && ssorted t | _ => true end.
  Definition search (l : list node) (i : nat) : option (option node) :=
    do ks <- omapM start_node_idx l;
    if ssorted ks then Some (find (fun x => match start_node_idx x with Some k => k =? i | None => false end) l) else None.
  Definition row_iter (s : sparse) (i : nat) : option (list (nat * T)) :=
    do o <- search (s_rows s) i;
    match o with
    | Some x => do p <- start_ptr x; iterate (negb (s_transposed s)) p
    | None => Some []
    end.
  Definition col_iter (s : sparse) (i : nat) : option (list (nat * T)) :=
    do o <- search (s_cols s) i;
    match o with
    | Some x => do p <- start_ptr x; iterate (s_transposed s) p
    | None => Some []
    end.
  (** :163-168 [transpose]. *)
  Definition s_transpose (s : sparse) : sparse :=
    Sparse (s_cols s) (s_rows s) (snd (s_size s), fst (s_size s)) (negb (s_transposed s)).

  (** alg/src/lin_alg/sparse_matrix_impl.rs:196-217 [PartialEq<Matrix<T>>]. *)
  Variable teqb : T -> T -> bool.
  Fixpoint eq_row (M : mat T) (i j : nat) (l : list (nat * T)) : option bool :=
    match l with
    | [] => do b <- anyM (fun k => do x <- mget M i k; Some (negb (teqb x t0))) (rng j (nc M)); Some (negb b)
    | (k, val) :: t =>
        do b <- anyM (fun c => do x <- mget M i c; Some (negb (teqb x t0))) (rng j k);
        if b then Some false else
        do y <- mget M i k;
        if negb (teqb y val) then Some false else eq_row M i (k + 1) t
    end.
  Definition s_eq (s : sparse) (M : mat T) : option bool :=
    if negb ((fst (s_size s) =? nr M) && (snd (s_size s) =? nc M)) then Some false
    else allM (fun i => do l <- row_iter s i; eq_row M i 0 l) (rng 0 (fst (s_size s))).

  (** alg/src/lin_alg/sparse_matrix_impl.rs:240-250: the [while] loop; [l1], [l2] are what the iterators still yield. *)
  Fixpoint mul_loop (fuel : nat) (l1 l2 : list (nat * T)) (k2 : nat) (v2 sum : T) : option T :=
    match fuel with
    | O => None
    | S fu =>
        match l1 with
        | [] => Some sum
        | (k1, v1) :: l1 =>
            if k1 =? k2 then mul_loop fu l1 l2 k2 v2 (tadd sum (tmul v1 v2))
            else if k2 <? k1 then mul_loop fu l2 l1 k1 v1 sum
            else mul_loop fu l1 l2 k2 v2 sum
        end
    end.
  (** alg/src/lin_alg/sparse_matrix_impl.rs:219-256 [SparseMatrix * SparseMatrix]. *)
  Definition s_mul (a b : sparse) : option (mat T) :=
    if negb (snd (s_size a) =? fst (s_size b)) then None else
    do Z <- mzero (fst (s_size a)) (snd (s_size b));
    foldM (fun M i => foldM (fun M j =>
        do l1 <- row_iter a i; do l2 <- col_iter b j;
        match l2 with
        | [] => Some M
        | (k2, v2) :: l2 => do x <- mul_loop (S (length l1 + length l2)) l1 l2 k2 v2 t0; mset M i j x
        end) (seq 0 (snd (s_size b))) M) (seq 0 (fst (s_size a))) Z.

  (** alg/src/lin_alg/sparse_matrix_impl.rs:259-281 [SparseMatrix * Matrix]. *)
  Definition s_mul_dense (a : sparse) (B : mat T) : option (mat T) :=
    if negb (snd (s_size a) =? nr B) then None else
    do Z <- mzero (fst (s_size a)) (nc B);
    foldM (fun M i => foldM (fun M j =>
        do l <- row_iter a i;
        foldM (fun M kv => do x <- mget M i j; do y <- mget B (fst kv) j; mset M i j (tadd x (tmul (snd kv) y))) l M)
      (seq 0 (nc B)) M) (seq 0 (fst (s_size a))) Z.
  (** alg/src/lin_alg/sparse_matrix_impl.rs:283-295 [Matrix * SparseMatrix]. *)
  Definition dense_mul_s (A : mat T) (b : sparse) : option (mat T) :=
    if negb (nc A =? fst (s_size b)) then None else
    do At <- mtranspose A; do P <- s_mul_dense (s_transpose b) At; mtranspose P.
End Sparse.
Arguments node : clear implicits.
Arguments sparse : clear implicits.
