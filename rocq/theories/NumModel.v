(** Model of the numerical linear algebra of alg/src/lin_alg/matrix_impl.rs:1134-1995.
    Simplifications: [f64] is the type of real numbers with exact arithmetic, and a decimal literal is the number written; a division by
    zero, where [f64] leaves the finite numbers, is [None], like a panic and like an underflow of [usize].  The square root is only taken of
    sums of squares and of a number tested to be positive.  [while] loops take a number of iterations and give [Some None] when they
    have not ended after it. *)
From Coq Require Import List Arith Bool Reals.
From Verif Require Import PidModel MatModel SnfModel RankModel LuModel.
Import ListNotations.
Open Scope nat_scope.

Global Instance ops_R : Ops R := {| t0 := 0%R; t1 := 1%R; tadd := Rplus; tmul := Rmult; tsub := Rminus; topp := Ropp |}.
Global Instance fops_R : FOps R := {| tdiv := Rdiv; teqb := fun x y => if Req_EM_T x y then true else false |}.
(** [x < y], [x <= y] on [f64]. *)
Definition rltb (x y : R) : bool := if Rlt_dec x y then true else false.
Definition rleb (x y : R) : bool := if Rle_dec x y then true else false.
(** [a - b] on [usize] *)
Definition usub (a b : nat) : option nat := if b <=? a then Some (a - b) else None.

(** matrix_impl.rs:1649-1653 [one_norm] *)
Definition one_norm (M : mat R) : option R :=
  do l <- omapM (fun j => do c <- omapM (fun i => do x <- mget M i j; Some (Rabs x)) (seq 0 (nr M)); Some (fold_left Rplus c 0%R)) (seq 0 (nc M));
  Some (fold_left (fun mx v => if rleb mx v then v else mx) l 0%R).
(** :1655-1661 [two_norm] *)
Definition two_norm (M : mat R) : option R :=
  if nc M =? 1 then do l <- omapM (fun i => do x <- mget M i 0; Some (x * x)%R) (seq 0 (nr M)); Some (sqrt (fold_left Rplus l 0%R)) else None.
(** :1663-1667 [inf_norm] *)
Definition inf_norm (M : mat R) : option R :=
  do l <- omapM (fun i => do c <- omapM (fun j => do x <- mget M i j; Some (Rabs x)) (seq 0 (nc M)); Some (fold_left Rplus c 0%R)) (seq 0 (nr M));
  Some (fold_left (fun mx v => if rleb mx v then v else mx) l 0%R).
(** :1669-1676 [frobenius_norm] *)
Definition frobenius_norm (M : mat R) : option R :=
  do l <- omapM (fun i => do c <- omapM (fun j => do x <- mget M i j; Some (x * x)%R) (seq 0 (nc M)); Some (fold_left Rplus c 0%R)) (seq 0 (nr M));
  Some (sqrt (fold_left Rplus l 0%R)).

(** [a.transpose().dot(&b)] for two column views *)
Definition cdot (a b : mat R) : option R := do t <- mtranspose a; mdot t b.
(** [self[(.., i)].write(&u)] *)
Definition wcol (M : mat R) (i : nat) (u : mat R) : option (mat R) := mwrite M 0 (nr M) i (i + 1) u.
(** matrix_impl.rs:539-547 [self[(.., i)] /= c] *)
Definition divcol (M : mat R) (i : nat) (c : R) : option (mat R) := do a <- mcol M i; do u <- mdivs a c; wcol M i u.

(** matrix_impl.rs:1196-1197: column [i] minus its component along the unit column [j]. *)
Definition gs_step (i : nat) (M : mat R) (j : nat) : option (mat R) :=
  do a <- mcol M i; do b <- mcol M j; do d <- cdot a b; do bd <- mscale b d; do u <- msub a bd; wcol M i u.
(** :1199-1200, 1191-1192: normalise column [i]. *)
Definition normalize_col (M : mat R) (i : nat) : option (mat R) := do a <- mcol M i; do f <- two_norm a; divcol M i f.
(** matrix_impl.rs:1189-1204 [gram_schmidt] *)
Definition gram_schmidt (M : mat R) : option (mat R) :=
  do M <- normalize_col M 0;
  foldM (fun M i => do M <- foldM (gs_step i) (rng 0 i) M; normalize_col M i) (rng 1 (nc M)) M.

(** matrix_impl.rs:1209-1210 *)
Definition gsw_step (i : nat) (M : mat R) (j : nat) : option (mat R) :=
  do a <- mcol M i; do b <- mcol M j; do d <- cdot a b; do bd <- mscale b d; do e <- cdot b b; do q <- mdivs bd e; do u <- msub a q; wcol M i u.
(** matrix_impl.rs:1206-1215 [gram_schmidt_without_normalize] *)
Definition gram_schmidt_without_normalize (M : mat R) : option (mat R) :=
  foldM (fun M i => foldM (gsw_step i) (rng 0 i) M) (rng 1 (nc M)) M.
(** matrix_impl.rs:1217-1224 [gram_schmidt_coeff_update] *)
Definition gs_coeff (C B G : mat R) : option (mat R) :=
  foldM (fun C i => foldM (fun C j =>
    do b <- mcol B i; do g <- mcol G j; do d <- cdot b g; do e <- cdot g g; do q <- fdiv d e; mset C i j q) (rng 0 i) C) (rng 0 (nc B)) C.

(** [f64::round]: to the nearest integer, halves away from zero. *)
Definition rround (x : R) : R := if rleb 0 x then IZR (Int_part (x + / 2)) else (- IZR (Int_part (- x + / 2)))%R.
(** The three matrices of [lll_lattice_reduce]: the basis, its orthogonalisation, the coefficients. *)
Record lll_st := LllSt { l_b : mat R; l_g : mat R; l_c : mat R }.
Definition lll_refresh (B C : mat R) : option lll_st := do G <- gram_schmidt_without_normalize B; do C <- gs_coeff C B G; Some (LllSt B G C).
(** matrix_impl.rs:1237-1244 *)
Definition lll_reduce_step (i : nat) (s : lll_st) (j : nat) : option lll_st :=
  do m <- mget (l_c s) i j;
  if rleb (Rabs m) (/ 2) then Some s else
  do a <- mcol (l_b s) i; do b <- mcol (l_b s) j; do br <- mscale b (rround m); do u <- msub a br; do B <- wcol (l_b s) i u; lll_refresh B (l_c s).
(** :1236-1256, the body of [while]; the new state and the new index. *)
Definition lll_body (delta : R) (s : lll_st) (i : nat) : option (lll_st * nat) :=
  do s <- foldM (lll_reduce_step i) (rev (rng 0 i)) s;
  do g <- mcol (l_g s) i; do a <- cdot g g; do g1 <- mcol (l_g s) (i - 1); do b <- cdot g1 g1; do m <- mget (l_c s) i (i - 1);
  if rltb (b * (delta - m * m)) a then Some (s, i + 1)
  else do B <- swap_cols (l_b s) (i - 1) i; do s <- lll_refresh B (l_c s); Some (s, Nat.max (i - 1) 1).
Fixpoint lll_loop (fuel : nat) (delta : R) (s : lll_st) (i : nat) : option (option (mat R)) :=
  if i <? nc (l_b s) then
    match fuel with 0 => Some None | S f => do si <- lll_body delta s i; lll_loop f delta (fst si) (snd si) end
  else Some (Some (l_b s)).
(** matrix_impl.rs:1226-1260 [lll_lattice_reduce] *)
Definition lll_lattice_reduce (fuel : nat) (M : mat R) (delta : R) : option (option (mat R)) :=
  if (nc M <=? nr M) && rltb (/ 4) delta && rltb delta 1 then
    do G <- gram_schmidt_without_normalize M; do C <- mzero (nc M) (nc M); do C <- gs_coeff C M G; lll_loop fuel delta (LllSt M G C) 1
  else None.

(** matrix_impl.rs:1262-1286, 1678-1680 [householder_vec] *)
Definition householder_vec (x : mat R) : option (mat R * R) :=
  if 1 <? nc x then None else
  do t <- msub_view x 1 (nr x) 0 1; do a <- cdot t t; do b <- mget x 0 0; do v <- mset x 0 0 1%R;
  if teqb a 0%R && rleb 0 b then Some (v, 0%R)
  else if teqb a 0%R && rltb b 0 then Some (v, (-2)%R)
  else
    let u := sqrt (a + b * b) in
    do h <- (if rleb b 0 then Some (b - u)%R else fdiv (- a)%R (b + u)%R);
    do v <- mset v 0 0 h;
    let d := (h * h)%R in
    do v <- mdivs v h; do be <- fdiv (2 * d)%R (a + d)%R; Some (v, be).

(** matrix_impl.rs:1288-1304 [givens_rotation] *)
Definition givens_rotation (a b : R) : option (R * R) :=
  if rltb (Rabs b) (/ 1000000000000) then Some (1, 0)%R
  else if rltb (Rabs a) (Rabs b) then
    do c <- fdiv (- a)%R b; do y <- fdiv 1%R (sqrt (1 + c * c)); Some (c * y, y)%R
  else
    do c <- fdiv (- b)%R a; do x <- fdiv 1%R (sqrt (1 + c * c)); Some (x, c * x)%R.

(** matrix_impl.rs:1682-1692 [real_spectrum_of_two_by_two] ([debug_assert_eq!] on the size) *)
Definition real_spectrum_of_two_by_two (M : mat R) : option (option (R * R)) :=
  if (nr M =? 2) && (nc M =? 2) then
    do a <- mget M 0 0; do b <- mget M 0 1; do c <- mget M 1 0; do d <- mget M 1 1;
    let det := (a * d - b * c)%R in let m := ((a + d) / 2)%R in
    Some (if rltb 0 (m * m - det) then Some (m - sqrt (m * m - det), m + sqrt (m * m - det))%R else None)
  else None.

(** matrix_impl.rs:1722-1723: rows [r0..r1] of the columns [c0..c1] from the left. *)
Definition house_left (M : mat R) (r0 r1 c0 c1 : nat) (v : mat R) (b : R) : option (mat R) :=
  do B <- msub_view M r0 r1 c0 c1; do vt <- mtranspose v; do w <- mmul vt B; do vw <- mmul v w; do vwb <- mscale vw b; do u <- msub B vwb;
  mwrite M r0 r1 c0 c1 u.
(** :1725-1726: columns [c0..c1] of the rows [r0..r1] from the right. *)
Definition house_right (M : mat R) (r0 r1 c0 c1 : nat) (v : mat R) (b : R) : option (mat R) :=
  do B <- msub_view M r0 r1 c0 c1; do vt <- mtranspose v; do w <- mmul B v; do vw <- mmul w vt; do vwb <- mscale vw b; do u <- msub B vwb;
  mwrite M r0 r1 c0 c1 u.
(** matrix_impl.rs:1717-1727 *)
Definition hess_step (n : nat) (M : mat R) (k : nat) : option (mat R) :=
  do x <- msub_view M (k + 1) n k (k + 1); do vb <- householder_vec x;
  do M <- house_left M (k + 1) n k n (fst vb) (snd vb);
  house_right M 0 n (k + 1) n (fst vb) (snd vb).
(** matrix_impl.rs:1707-1728 [hessenberg_form] *)
Definition hessenberg_form (M : mat R) : option (mat R) :=
  if nr M =? nc M then if nr M <? 2 then Some M else foldM (hess_step (nr M)) (rng 0 (nr M - 2)) M else None.
