(** Model of more [Display] / [Debug] implementations: cell complexes, sparse matrices, labelled sets and the debug form of a simple graph.
    Conventions as in ShowModel.v. *)
From Coq Require Import String Ascii List ZArith Bool.
From Verif Require Import PidModel MatModel UtilModel GraphModel CubeModel MorseCplxModel SparseModel ShowModel.
Import ListNotations.
Open Scope nat_scope.
Open Scope list_scope.

(** topo_spaces/src/cubical.rs:246-259 and 1138-1147: one cell; [final_branch_indeces.last().unwrap()]. *)
Definition show_cell (c : cplx) (i : nat) (l : list factor) : option text :=
  do z <- nth_error (c_final c) (length (c_final c) - 1);
  Some (["010"%char; "009"%char] ++ lit "{" ++ concat (map (fun f => show_factor f ++ lit ", ") l) ++ lit "}" ++ if i =? z then [] else lit ", ").
(** cubical.rs:240-265 [Display for CubicalCplx]. The filter is evaluated for every index before the cells are shown (in the code it is
    interleaved with them; a panic of either ends both). *)
Definition show_cells_of_dim (c : cplx) (k : nat) : option text :=
  do is <- filterM (fun i => do d <- dim_of c i; Some (d =? k)) (c_final c);
  do ts <- omapM (fun i => do o <- get_cell_from_idx c i; do l <- o; show_cell c i l) is;
  Some (show_nat k ++ lit "-cells:" ++ concat ts ++ ["010"%char]).
Definition show_cplx (c : cplx) : option text :=
  do ts <- omapM (show_cells_of_dim c) (seq 0 (S (c_dim c))); Some (concat ts).
(** cubical.rs:1132-1155 [Display for UdnMorseCplx]. *)
Definition show_morse_dim (c : cplx) (k : nat) : option text :=
  do r <- nth_error (c_ranks c) k;
  do is <- filterM (fun i => do d <- dim_of c i; Some (d =? k)) (c_final c);
  do ts <- omapM (fun i => do l <- cube_at c i; show_cell c i l) is;
  Some (show_nat k ++ lit "-cells: " ++ show_nat r ++ lit " cells in total" ++ concat ts ++ ["010"%char]).
Definition show_morse (c : cplx) : option text :=
  do ts <- omapM (show_morse_dim c) (seq 0 (S (c_dim c))); Some (concat ts).

(** alg/src/lin_alg/sparse_matrix_impl.rs:285-294 [Display for SparseMatrix], for integer entries. *)
Definition show_sparse_row (s : sparse Z) (i : nat) : option text :=
  do l <- row_iter s i;
  Some (concat (map (fun jv => lit "(" ++ show_nat i ++ lit ", " ++ show_nat (fst jv) ++ lit "): " ++ show_Z (snd jv) ++ ["010"%char]) l)).
Definition show_sparse (s : sparse Z) : option text :=
  do ts <- omapM (show_sparse_row s) (seq 0 (fst (s_size s))); Some (concat ts).

(** util/src/lib.rs:322-335 [Display for LabeledSet]. *)
Definition show_lset {T} (show_t : T -> text) (s : lset T) : option text :=
  do l <- lset_iter s;
  Some (lit "{" ++ match l with [] => [] | x :: r => show_t x ++ concat (map (fun y => lit ", " ++ show_t y) r) end ++ lit "}").

(** topo_spaces/src/graph.rs:498-512 [Debug for RawSimpleGraph]. *)
Definition debug_row (g : rawg) (i : nat) : option text :=
  do l <- omapM (fun j => do b <- g_contains g i j; Some (lit " " ++ if b then lit "+" else lit " ")) (seq (i + 1) (g_n g - (i + 1)));
  Some (concat (repeat (lit "  ") i) ++ (if i <? 10 then lit " " else []) ++ show_nat i ++ concat l ++ ["010"%char]).
Definition debug_rawg (g : rawg) : option text :=
  do l <- omapM (debug_row g) (seq 0 (g_n g)); Some (concat l).
