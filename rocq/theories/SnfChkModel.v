(** Model of [Matrix::smith_normal_form] (alg/src/lin_alg/matrix_impl.rs:819-1074) and [IntegralHomology::new] (topo_spaces/src/lib.rs:44-142)
    on a machine integer type: the definitions of SnfModel and HomModel, with every arithmetic result passing through a policy for
    overflow.  Nothing else is different; [SnfChkProps.C134_exact] shows that with exact arithmetic the two models are equal. *)
From Coq Require Import List Arith ZArith Bool.
From Verif Require Import PidModel LinModel MatModel SnfModel HomModel.
Import ListNotations.
Open Scope nat_scope.

(** [p_ar]: results of [+], [-], [*] and negation; [p_div]: results of [/] ([MIN / -1] panics in every build); [p_dbg]: whether
    [debug_assert!] is checked. *)
Record policy := { p_ar : Z -> option Z; p_div : Z -> option Z; p_dbg : bool }.
(** Unbounded integers. *)
Definition exact : policy := {| p_ar := ideal; p_div := ideal; p_dbg := true |}.
(** Debug build, w-bit signed type: overflow panics. *)
Definition debug (w : Z) : policy := {| p_ar := width w; p_div := width w; p_dbg := true |}.
(** Release build, w-bit signed type: overflow wraps around (two's complement), no [debug_assert!]. *)
Definition wrap (w z : Z) : Z := ((z + 2 ^ (w - 1)) mod 2 ^ w - 2 ^ (w - 1))%Z.
Definition release (w : Z) : policy := {| p_ar := fun z => Some (wrap w z); p_div := width w; p_dbg := false |}.

Section Policy.
  Variable pl : policy.
  Notation ar := (p_ar pl).

  (** alg/src/commutative.rs:146-159 [euclid_div]. *)
  Definition euclid_div_p (n d : Z) : option (Z * Z) :=
    if (d =? 0)%Z then None else
    do q <- p_div pl (Z.quot n d);
    let r := Z.rem n d in
    if (r <? 0)%Z then
      if (0 <? d)%Z then do r' <- ar (r + d)%Z; do q' <- ar (q - 1)%Z; Some (q', r')
      else do r' <- ar (r - d)%Z; do q' <- ar (q + 1)%Z; Some (q', r')
    else Some (q, r).
  (** alg/src/commutative.rs:161-168 [simplify]. *)
  Definition simplify_p (n : Z) : option (Z * Z) :=
    let sign := if (n <? 0)%Z then (-1)%Z else 1%Z in
    do m <- ar (sign * n)%Z; Some (sign, m).
  (** alg/src/commutative.rs:120-122 [divides]. *)
  Definition divides_p (d n : Z) : option bool := do qr <- euclid_div_p n d; Some (snd qr =? 0)%Z.
  (** alg/src/commutative.rs:201-208 [bezout_identity_rec]; recursion on fuel. *)
  Fixpoint bezout_rec_p (fuel : nat) (a b x1 x2 y1 y2 : Z) : option (Z * Z * Z) :=
    match fuel with
    | O => None
    | S f =>
        if (a =? 0)%Z then
          do s <- simplify_p b;
          do xq <- euclid_div_p x2 (fst s);
          do yq <- euclid_div_p y2 (fst s);
          Some (snd s, fst xq, fst yq)
        else
          do qr <- euclid_div_p b a;
          do px <- ar (x1 * fst qr)%Z;
          do x' <- ar (x2 - px)%Z;
          do py <- ar (y1 * fst qr)%Z;
          do y' <- ar (y2 - py)%Z;
          bezout_rec_p f (snd qr) a x' x1 y' y1
    end.
  (** alg/src/commutative.rs:197-199 [bezout_identity]. *)
  Definition bezout_identity_p (a b : Z) : option (Z * Z * Z) := bezout_rec_p (euclid_fuel a) a b 1 0 0 1.

  (** alg/src/lin_alg/matrix_impl.rs:332-340 [Add]. *)
  Definition madd_p (A B : mat Z) : option (mat Z) :=
    if (nr A =? nr B) && (nc A =? nc B) then
      mbuild (nr A) (nc A) (fun i j => do a <- mget A i j; do b <- mget B i j; ar (a + b)%Z)
    else None.
  (** alg/src/lin_alg/matrix_impl.rs:487-498 [Mul<T>]. *)
  Definition mscale_p (A : mat Z) (c : Z) : option (mat Z) :=
    mbuild (nr A) (nc A) (fun i j => do a <- mget A i j; ar (a * c)%Z).
  (** alg/src/lin_alg/matrix_impl.rs:167-170 [row_operation]. *)
  Definition row_operation_p (M : mat Z) (r1 r2 : nat) (s : Z) : option (mat Z) :=
    do r <- mrow M r2; do v <- mscale_p r s;
    foldM (fun M i => do a <- mget M r1 i; do b <- mget v 0 i; do c <- ar (a + b)%Z; mset M r1 i c) (seq 0 (nc M)) M.
  (** alg/src/lin_alg/matrix_impl.rs:172-175 [col_operation]. *)
  Definition col_operation_p (M : mat Z) (c1 c2 : nat) (s : Z) : option (mat Z) :=
    do c <- mcol M c2; do v <- mscale_p c s;
    foldM (fun M j => do a <- mget M j c1; do b <- mget v j 0; do c <- ar (a + b)%Z; mset M j c1 c) (seq 0 (nr M)) M.

  (** [&m[(i, c0..)]*x + &m[(k, c0..)]*y] and the four-line patterns, as in SnfModel (matrix_impl.rs:920-933, 951-964, 1045-1058). *)
  Definition comb_rows_p (M : mat Z) (i k c0 : nat) (x y : Z) : option (mat Z) :=
    do a <- msub_view M i (i + 1) c0 (nc M); do a' <- mscale_p a x;
    do b <- msub_view M k (k + 1) c0 (nc M); do b' <- mscale_p b y; madd_p a' b'.
  Definition block_rows_p (M : mat Z) (i k c0 : nat) (x y z w : Z) : option (mat Z) :=
    do u <- comb_rows_p M i k c0 x y; do z' <- ar (- z)%Z; do v <- comb_rows_p M i k c0 z' w;
    do M1 <- mwrite M i (i + 1) c0 (nc M) u; mwrite M1 k (k + 1) c0 (nc M) v.
  Definition comb_cols_p (M : mat Z) (j l r0 : nat) (x y : Z) : option (mat Z) :=
    do a <- msub_view M r0 (nr M) j (j + 1); do a' <- mscale_p a x;
    do b <- msub_view M r0 (nr M) l (l + 1); do b' <- mscale_p b y; madd_p a' b'.
  Definition block_cols_p (M : mat Z) (j l r0 : nat) (x y z w : Z) : option (mat Z) :=
    do u <- comb_cols_p M j l r0 x y; do z' <- ar (- z)%Z; do v <- comb_cols_p M j l r0 z' w;
    do M1 <- mwrite M r0 (nr M) j (j + 1) u; mwrite M1 r0 (nr M) l (l + 1) v.

  (** [self[(a,b)].divides(self[(c,d)])], [a.euclid_div(b).0] *)
  Definition dividesM_p (M : mat Z) (a b c d : nat) : option bool := do x <- mget M a b; do y <- mget M c d; divides_p x y.
  Definition quotM_p (a b : Z) : option Z := do qr <- euclid_div_p a b; Some (fst qr).
  (** [debug_assert!(c)] *)
  Definition dassert (b : option bool) : option unit := if p_dbg pl then assertM b else Some tt.

  (** alg/src/lin_alg/matrix_impl.rs:911-938 *)
  Definition improve_row_step_p (i j : nat) (st : snf) (k : nat) : option snf :=
    do dv <- dividesM_p (sS st) i j k j;
    if dv then Some st else
    do a <- mget (sS st) i j; do b <- mget (sS st) k j;
    do gxy <- bezout_identity_p a b;
    let gcd := fst (fst gxy) in let x := snd (fst gxy) in let y := snd gxy in
    do s <- quotM_p a gcd; do t <- quotM_p b gcd;
    do S' <- block_rows_p (sS st) i k j x y t s;
    do R' <- block_rows_p (sR st) i k 0 x y t s;
    do Ri' <- block_cols_p (sRi st) i k 0 s t y x;
    let st' := Snf S' R' Ri' (sC st) (sCi st) in
    do _ <- dassert (equalsM S' i j gcd);
    Some st'.
  (** alg/src/lin_alg/matrix_impl.rs:945-972 *)
  Definition improve_col_step_p (i j : nat) (st : snf) (l : nat) : option snf :=
    do dv <- dividesM_p (sS st) i j i l;
    if dv then Some st else
    do a <- mget (sS st) i j; do b <- mget (sS st) i l;
    do gxy <- bezout_identity_p a b;
    let gcd := fst (fst gxy) in let x := snd (fst gxy) in let y := snd gxy in
    do s <- quotM_p a gcd; do t <- quotM_p b gcd;
    do S' <- block_cols_p (sS st) j l i x y t s;
    do C' <- block_cols_p (sC st) j l 0 x y t s;
    do Ci' <- block_rows_p (sCi st) j l 0 s t y x;
    let st' := Snf S' (sR st) (sRi st) C' Ci' in
    do _ <- dassert (equalsM S' i j gcd);
    Some st'.
  (** alg/src/lin_alg/matrix_impl.rs:909-978 *)
  Definition not_divides_some_p (i j : nat) (M : mat Z) : option bool :=
    do b1 <- anyM (fun k => do d <- dividesM_p M i j k j; Some (negb d)) (rng (i + 1) (nr M));
    if b1 then Some true else anyM (fun l => do d <- dividesM_p M i j i l; Some (negb d)) (rng (j + 1) (nc M)).
  Fixpoint improve_p (fuel : nat) (i j : nat) (st : snf) : option snf :=
    match fuel with
    | O => None
    | S f =>
        do c <- not_divides_some_p i j (sS st);
        if c then
          do st1 <- foldM (improve_row_step_p i j) (rng (i + 1) (nr (sS st))) st;
          do _ <- dassert (allM (fun k => dividesM_p (sS st1) i j k j) (rng (i + 1) (nr (sS st))));
          do st2 <- foldM (improve_col_step_p i j) (rng (j + 1) (nc (sS st))) st1;
          do _ <- dassert (allM (fun l => dividesM_p (sS st2) i j i l) (rng (j + 1) (nc (sS st))));
          improve_p f i j st2
        else Some st
    end.
  (** alg/src/lin_alg/matrix_impl.rs:981-988 *)
  Definition elim_row_step_p (i j : nat) (st : snf) (k : nat) : option snf :=
    do nz <- nonzeroM (sS st) k j;
    if nz then
      do a <- mget (sS st) k j; do p <- mget (sS st) i j;
      do ratio <- quotM_p a p; do nratio <- ar (- ratio)%Z;
      do S' <- row_operation_p (sS st) k i nratio;
      do R' <- row_operation_p (sR st) k i nratio;
      do Ri' <- col_operation_p (sRi st) i k ratio;
      Some (Snf S' R' Ri' (sC st) (sCi st))
    else Some st.
  (** alg/src/lin_alg/matrix_impl.rs:990-997 *)
  Definition elim_col_step_p (i j : nat) (st : snf) (l : nat) : option snf :=
    do nz <- nonzeroM (sS st) i l;
    if nz then
      do a <- mget (sS st) i l; do p <- mget (sS st) i j;
      do ratio <- quotM_p a p; do nratio <- ar (- ratio)%Z;
      do S' <- col_operation_p (sS st) l j nratio;
      do C' <- col_operation_p (sC st) l j nratio;
      do Ci' <- row_operation_p (sCi st) j l ratio;
      Some (Snf S' (sR st) (sRi st) C' Ci')
    else Some st.
  (** alg/src/lin_alg/matrix_impl.rs:882-1000: the main [while] loop.  The fuel of the inner loop is that of SnfModel; for a release
      build it may be too small, so [None] of [release w] can also mean that nothing is known. *)
  Fixpoint pivot_loop_p (fuel : nat) (i j : nat) (st : snf) : option snf :=
    if (i <? nr (sS st)) && (j <? nc (sS st)) then
      match fuel with
      | O => None
      | S f =>
          do oj <- find_col (sS st) i j;
          match oj with
          | None => Some st
          | Some j =>
              do ol <- find_col (sS st) i j;
              match ol with
              | None => None
              | Some l =>
                  do S1 <- swap_cols (sS st) j l; do C1 <- swap_cols (sC st) j l; do Ci1 <- swap_rows (sCi st) j l;
                  let st1 := Snf S1 (sR st) (sRi st) C1 Ci1 in
                  do nz <- nonzeroM (sS st1) i j;
                  do st2 <- (if nz then Some st1 else
                    do ok <- findM (fun k => nonzeroM (sS st1) k j) (rng i (nr (sS st1)));
                    match ok with
                    | None => None
                    | Some k =>
                        do S2 <- swap_rows (sS st1) i k; do R2 <- swap_rows (sR st1) i k; do Ri2 <- swap_cols (sRi st1) i k;
                        Some (Snf S2 R2 Ri2 (sC st1) (sCi st1))
                    end);
                  do _ <- dassert (nonzeroM (sS st2) i j);
                  do st3 <- improve_p (improve_fuel i j (sS st2)) i j st2;
                  do st4 <- foldM (elim_row_step_p i j) (rng (i + 1) (nr (sS st3))) st3;
                  do st5 <- foldM (elim_col_step_p i j) (rng (j + 1) (nc (sS st4))) st4;
                  pivot_loop_p f (i + 1) (j + 1) st5
              end
          end
      end
    else Some st.
  (** alg/src/lin_alg/matrix_impl.rs:1031-1067 *)
  Definition divis_step_p (r : nat) (st : snf) (s : nat) : option snf :=
    do dv <- dividesM_p (sS st) r r s s;
    if dv then Some st else
    do S1 <- col_operation_p (sS st) r s 1%Z;
    do C1 <- col_operation_p (sC st) r s 1%Z;
    do m1 <- ar (- 1)%Z;
    do Ci1 <- row_operation_p (sCi st) s r m1;
    do a <- mget S1 r r; do b <- mget S1 s r;
    do gxy <- bezout_identity_p a b;
    let gcd := fst (fst gxy) in let x := snd (fst gxy) in let y := snd gxy in
    do z <- quotM_p a gcd; do w <- quotM_p b gcd;
    do S2 <- block_rows_p S1 r s 0 x y w z;
    do R2 <- block_rows_p (sR st) r s 0 x y w z;
    do Ri2 <- block_cols_p (sRi st) r s 0 z w y x;
    do nw <- ar (- w)%Z; do nwy <- ar (nw * y)%Z; do wy <- ar (w * y)%Z;
    do S3 <- col_operation_p S2 s r nwy;
    do C3 <- col_operation_p C1 s r nwy;
    do Ci3 <- row_operation_p Ci1 s r wy;
    do _ <- dassert (equalsM S3 r r gcd);
    do _ <- dassert (equalsM S3 r s 0%Z);
    do _ <- dassert (equalsM S3 s r 0%Z);
    Some (Snf S3 R2 Ri2 C3 Ci3).
  Definition divis_loop_p (rank : nat) (st : snf) : option snf :=
    foldM (fun st r => foldM (divis_step_p r) (rng (r + 1) rank) st) (rng 0 rank) st.
  (** alg/src/lin_alg/matrix_impl.rs:820-1073 [smith_normal_form] = (r_op_inv, r_op, self, c_op, c_op_inv). *)
  Definition smith_normal_form_p (M : mat Z) : option (mat Z * mat Z * mat Z * mat Z * mat Z) :=
    do R <- midentity (nr M); do Ri <- midentity (nr M); do C <- midentity (nc M); do Ci <- midentity (nc M);
    do st1 <- pivot_loop_p (nr M) 0 0 (Snf M R Ri C Ci);
    do st2 <- diag_loop (rng 0 (Nat.min (nr M) (nc M))) st1;
    do rank <- snf_rank (sS st2);
    do st3 <- divis_loop_p rank st2;
    do _ <- dassert (allM (fun i => allM (fun k => dividesM_p (sS st3) i i k k) (rng (i + 1) rank)) (rng 0 rank));
    Some (sRi st3, sR st3, sS st3, sC st3, sCi st3).

  Context {B : Type}.
  Variable cmp : B -> B -> comparison.
  (** alg/src/lin_alg/matrix_impl.rs:1120-1133 [Matrix<i64> * Vec<Basis>] *)
  Definition change_basis_p (M : mat Z) (bs : list B) : option (list (list (Z * B))) :=
    if nc M =? length bs then
      omapM (fun i => do l <- omapM (fun j => do c <- mget M i j; do b <- nth_error bs j; b_scale ar c b) (seq 0 (nc M));
                      vsum ar cmp l) (seq 0 (nr M))
    else None.
  (** topo_spaces/src/lib.rs:54-114: the closure. *)
  Definition hom_step_p (st : hst) (bm : mat Z * list B) : option ((module_ * list (list (Z * B)) * list (list (Z * B))) * hst) :=
    do snf5 <- smith_normal_form_p (fst bm);
    let '(r_op_inv, _, D, c_op, _) := snf5 in
    do rank_lower <- rank_of_diag D;
    let dim := nc D in
    do f1 <- subM dim rank_lower; do fr <- subM f1 (h_rank st);
    let hom := module_new fr (h_divs st) in
    do ct <- mtranspose c_op; do cyc <- change_basis_p ct (snd bm);
    let cycles := skipn rank_lower cyc in
    do rt <- mtranspose (h_row st); do bnd <- change_basis_p rt (snd bm);
    do boundaries <- omapM (fun ix => do d <- divisor_at (h_divs st) (fst ix); vmul ar (snd ix) d)
                       (combine (seq 0 (h_rank st)) (firstn (h_rank st) bnd));
    do ds <- omapM (fun i => mget D i i) (seq 0 rank_lower);
    Some ((hom, cycles, boundaries), {| h_rank := rank_lower; h_divs := fold_left push_divisor ds []; h_row := r_op_inv |}).
  Fixpoint hom_run_p (st : hst) (l : list (mat Z * list B)) : option (list (module_ * list (list (Z * B)) * list (list (Z * B)))) :=
    match l with
    | [] => Some []
    | bm :: t => do r <- hom_step_p st bm; do o <- hom_run_p (snd r) t; Some (o ++ [fst r])
    end.
  (** topo_spaces/src/lib.rs:44-142 [IntegralHomology::new] *)
  Definition integral_homology_p (bms : list (mat Z * list B)) (max_dim : option nat)
    : option (list (module_ * list (list (Z * B)) * list (list (Z * B)))) :=
    match rev bms with
    | [] => None
    | lastm :: _ =>
        do I <- midentity (nc (fst lastm));
        do out <- hom_run_p {| h_rank := 0; h_divs := []; h_row := I |} (rev bms);
        let cut := match max_dim with None => out | Some d => firstn (d + 1) out end in
        Some (rev (drop_zero (rev cut)))
    end.
End Policy.
