(** Model of the [Display] / [Debug] implementations: the text that [println!("{}", x)] shows for a value. A text is the list of its (UTF-8)
    bytes; [write!(f, ..)] appends. [None] is a panic. Integers are shown in decimal (std [Display] of u64 / usize / i64: no padding, no leading
    zeros, '-' before a negative number; the precision that Matrix passes on has no effect on integers), by Coq's own decimal numerals.
    Not modelled: floating-point entries, formatter errors (a [String] never fails), the [Display] of smooth functions and of triangulations. *)
From Coq Require Import String Ascii DecimalString List ZArith Bool.
From Verif Require Import PidModel MatModel RationalModel PermModel LinModel UtilModel GraphModel LabGraphModel CubeModel.
Import ListNotations.
Open Scope nat_scope.

Definition text := list ascii.
Definition lit (s : string) : text := list_ascii_of_string s.
(** std: [Display] for usize / u64 and for i64. *)
Definition show_nat (n : nat) : text := lit (NilEmpty.string_of_uint (Nat.to_uint n)).
Definition show_Z (z : Z) : text := lit (NilEmpty.string_of_int (Z.to_int z)).

(** alg/src/lin_alg.rs:126-130: the first torsion summand; 135-139: the others are the same after " + ".
    [Coeff::symbol()] is "Z" for the integer types (commutative.rs:39-45). *)
Definition show_torsion (t : Z * nat) : text :=
  if snd t =? 1 then lit "Z_" ++ show_Z (fst t) else lit "(Z_" ++ show_Z (fst t) ++ lit ")^" ++ show_nat (snd t).
(** alg/src/lin_alg.rs:106-142 [Display for Module]. *)
Definition show_module (m : module_) : text :=
  if module_is_zero m then lit "0" else
  let plus := match elementary_divisors m with [] => [] | _ => lit " + " end in
  (if free_rank m =? 1 then lit "Z" ++ plus else if 1 <? free_rank m then lit "Z^" ++ show_nat (free_rank m) ++ plus else []) ++
  match elementary_divisors m with
  | [] => []
  | t :: rest => show_torsion t ++ concat (map (fun t => lit " + " ++ show_torsion t) rest)
  end.
(** topo_spaces/src/lib.rs:173-181 [Display for IntegralHomology]: one line for each dimension. *)
Definition show_homology (h : list module_) : text :=
  concat (map (fun im => lit "dim " ++ show_nat (fst im) ++ lit ": " ++ show_module (snd im) ++ lit "," ++ ["010"%char]) (combine (seq 0 (length h)) h)).

(** alg/src/non_commutative/permutation.rs:122-136 [Display for Cycle]: every element but the last is followed by ", ". *)
Definition show_cycle (c : cycle) : text :=
  match c with
  | [] => lit "(1)"
  | _ => lit "(" ++ concat (map (fun k => show_nat (nth k c 0) ++ lit ", ") (seq 0 (length c - 1))) ++ show_nat (last c 0) ++ lit ")"
  end.
(** permutation.rs:322-329 [Display for Permutation]. *)
Definition show_perm (p : perm) : text := concat (map show_cycle p).

(** alg/src/commutative/rational_impl.rs:233-245 [Display for Rational] (218-231 [Debug] is the same). *)
Definition show_rational (r : rational) : text :=
  (if sign r then [] else lit "-") ++ (if (den r =? 1)%Z then show_Z (num r) else show_Z (num r) ++ lit "/" ++ show_Z (den r)).

(** topo_spaces/src/graph.rs:1542-1549 [Display for CubeFactor]. *)
Definition show_factor (f : factor) : text :=
  match f with FEdge x y => lit "[" ++ show_nat x ++ lit " " ++ show_nat y ++ lit "]" | FVertex x => show_nat x end.
(** topo_spaces/src/cubical.rs:571-580 [Display for Cube]: [unwrap] panics on the cube without factors. *)
Definition show_cube (c : list factor) : option text :=
  match c with
  | [] => None
  | f :: r => Some (lit "{" ++ show_factor f ++ concat (map (fun g => lit ", " ++ show_factor g) r) ++ lit "}")
  end.

Section ShowVector.
  Context {B : Type}.
  (** [Display] of the basis. *)
  Variable show_b : B -> option text.
  (** alg/src/lin_alg.rs:420-427: the first term; 430-432: the others. The middle dot is two bytes. *)
  Definition show_first (t : Z * B) : option text :=
    do x <- show_b (snd t);
    Some (if (fst t =? 1)%Z then x else if (fst t =? -1)%Z then lit "-" ++ x else show_Z (fst t) ++ lit "·" ++ x).
  Definition show_other (t : Z * B) : option text :=
    do x <- show_b (snd t); Some (lit " + (" ++ show_Z (fst t) ++ lit ")·" ++ x).
  (** alg/src/lin_alg.rs:409-435 [Display for Vector]. *)
  Definition show_vector (v : list (Z * B)) : option text :=
    match v with
    | [] => Some (lit "0")
    | t :: r => do a <- show_first t; do l <- omapM show_other r; Some (a ++ concat l)
    end.
  (** topo_spaces/src/lib.rs:144-153 [get_description_of_cycles] (what = "-cycles: ") and 156-165 [get_description_of_boundaries]. *)
  Definition describe_dim (what : text) (iv : nat * list (list (Z * B))) : option text :=
    do l <- omapM (fun v => do t <- show_vector v; Some (["009"%char] ++ t ++ lit ", " ++ ["010"%char])) (snd iv);
    Some (show_nat (fst iv) ++ what ++ ["010"%char] ++ concat l).
  Definition describe (what : text) (cs : list (list (list (Z * B)))) : option text :=
    do l <- omapM (describe_dim what) (combine (seq 0 (length cs)) cs); Some (concat l).
  Definition describe_cycles := describe (lit "-cycles: ").
  Definition describe_boundaries := describe (lit "-boundaries: ").
End ShowVector.

(** util/src/lib.rs:156-175 [Debug for BinaryPool]. *)
Definition show_bit (b : bool) : text := if b then lit "1" else lit "0".
Definition show_pool (p : pool) : option text :=
  do l <- omapM (fun i => do b <- pool_contains p i; Some (show_bit b ++ if i =? p_len p - 1 then [] else lit ", ")) (seq 0 (p_len p));
  Some (lit "len = " ++ show_nat (p_len p) ++ lit ", " ++ lit "n_elements = " ++ show_nat (p_n p) ++ lit ", " ++ lit "data = [" ++ concat l ++ lit "]").

(** topo_spaces/src/graph.rs:485-495 [Display for RawSimpleGraph]. *)
Definition show_row (g : rawg) (j : nat) : option text :=
  do l <- omapM (fun i => do b <- g_contains g i j; Some (show_bit b)) (seq 0 j); Some (concat l ++ ["010"%char]).
Definition show_rawg (g : rawg) : option text :=
  do l <- omapM (show_row g) (seq 1 (g_n g - 1)); Some (concat l).

(** graph.rs:221-230 [Display for VertexVector], 238-246 [Display for SimpleVertex]. The position is [Rational::new(num, den)] (graph.rs:1152, 1169). *)
Definition show_svertex (v : svertex) : option text :=
  match v with
  | Essential s => Some (lit s)
  | Redundant s t k n d =>
      do r <- rnew nonneg (Z.of_nat n) (Z.of_nat d);
      Some (lit "(" ++ show_rational r ++ lit ")(" ++ lit s ++ lit ", " ++ lit t ++ lit ")" ++ (if k =? 0 then [] else show_nat k))
  end.
(** graph.rs:1270-1294 [Display for SimpleGraph]; [self.n_edges()-1] is evaluated at every edge and underflows (panics) when there is none. *)
Definition show_sgraph (g : sgraph) : option text :=
  do vs <- omapM (fun iv => do t <- show_svertex (snd iv); Some (t ++ if fst iv =? length (sg_list g) - 1 then [] else lit ", "))
             (combine (seq 0 (length (sg_list g))) (sg_list g));
  do es <- edge_iter (sg_data g);
  do ts <- omapM (fun ie =>
             do v <- nth_error (sg_list g) (fst (snd ie)); do w <- nth_error (sg_list g) (snd (snd ie));
             do a <- show_svertex v; do b <- show_svertex w;
             do m <- csub (g_n_edges (sg_data g)) 1;
             Some (lit "[" ++ a ++ lit ", " ++ b ++ lit "]" ++ if fst ie =? m then [] else lit ", ")) (combine (seq 0 (length es)) es);
  Some (lit "vertices: " ++ concat vs ++ ["010"%char] ++ lit "edges: " ++ concat ts ++ ["010"%char]).

(** alg/src/lin_alg/matrix_impl.rs:2124-2140 [Display for SubMatrix] (773-777 [Display for Matrix] forwards to it), for integer entries. *)
Definition show_mrow (M : mat Z) (i : nat) : option text :=
  do l <- omapM (fun j => do x <- mget M i j; Some (show_Z x ++ if j =? nc M - 1 then [] else ["009"%char])) (seq 0 (nc M));
  Some (lit "| " ++ concat l ++ lit " |" ++ ["010"%char]).
Definition show_mat (M : mat Z) : option text :=
  do l <- omapM (show_mrow M) (seq 0 (nr M)); Some (["010"%char] ++ concat l).
