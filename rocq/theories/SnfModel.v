(** Model of [Matrix::smith_normal_form] for integer coefficients (alg/src/lin_alg/matrix_impl.rs:819-1074).
    Arithmetic is exact ([ideal]); the [debug_assert!]s are modelled as panics.  The unbounded [while] loops run on fuel
    ([None] when it runs out); the theorems show that never happens. *)
From Coq Require Import List Arith ZArith Bool.
From Verif Require Import PidModel MatModel.
Import ListNotations.
Open Scope nat_scope.

(** [(a..b)] *)
Definition rng (a b : nat) : list nat := seq a (b - a).
(** [iter.any(p)], [iter.all(p)], [iter.find(p)], for a [p] that may panic. *)
Fixpoint anyM {A} (p : A -> option bool) (l : list A) : option bool :=
  match l with [] => Some false | x :: t => do b <- p x; if b then Some true else anyM p t end.
Fixpoint allM {A} (p : A -> option bool) (l : list A) : option bool :=
  match l with [] => Some true | x :: t => do b <- p x; if b then allM p t else Some false end.
Fixpoint findM {A} (p : A -> option bool) (l : list A) : option (option A) :=
  match l with [] => Some None | x :: t => do b <- p x; if b then Some (Some x) else findM p t end.
Definition assertM (b : option bool) : option unit := do x <- b; if x then Some tt else None.

(** The five local matrices [self, r_op, r_op_inv, c_op, c_op_inv]. *)
Record snf := Snf { sS : mat Z; sR : mat Z; sRi : mat Z; sC : mat Z; sCi : mat Z }.
Definition upS (st : snf) (M : mat Z) := Snf M (sR st) (sRi st) (sC st) (sCi st).
Definition upR (st : snf) (M : mat Z) := Snf (sS st) M (sRi st) (sC st) (sCi st).
Definition upRi (st : snf) (M : mat Z) := Snf (sS st) (sR st) M (sC st) (sCi st).
Definition upC (st : snf) (M : mat Z) := Snf (sS st) (sR st) (sRi st) M (sCi st).
Definition upCi (st : snf) (M : mat Z) := Snf (sS st) (sR st) (sRi st) (sC st) M.

(** [&m[(i, c0..)]*x + &m[(k, c0..)]*y] *)
Definition comb_rows (M : mat Z) (i k c0 : nat) (x y : Z) : option (mat Z) :=
  do a <- msub_view M i (i + 1) c0 (nc M); do a' <- mscale a x;
  do b <- msub_view M k (k + 1) c0 (nc M); do b' <- mscale b y; madd a' b'.
(** The four-line pattern, e.g. alg/src/lin_alg/matrix_impl.rs:920-923:
    [let u = &m[(i,c0..)]*x + &m[(k,c0..)]*y; let v = &m[(i,c0..)]*z + &m[(k,c0..)]*w;
     m[(i,c0..)].write_and_move(u); m[(k,c0..)].write_and_move(v);] *)
Definition block_rows (M : mat Z) (i k c0 : nat) (x y z w : Z) : option (mat Z) :=
  do u <- comb_rows M i k c0 x y; do v <- comb_rows M i k c0 z w;
  do M1 <- mwrite M i (i + 1) c0 (nc M) u; mwrite M1 k (k + 1) c0 (nc M) v.
(** The same for columns, e.g. alg/src/lin_alg/matrix_impl.rs:951-954. *)
Definition comb_cols (M : mat Z) (j l r0 : nat) (x y : Z) : option (mat Z) :=
  do a <- msub_view M r0 (nr M) j (j + 1); do a' <- mscale a x;
  do b <- msub_view M r0 (nr M) l (l + 1); do b' <- mscale b y; madd a' b'.
Definition block_cols (M : mat Z) (j l r0 : nat) (x y z w : Z) : option (mat Z) :=
  do u <- comb_cols M j l r0 x y; do v <- comb_cols M j l r0 z w;
  do M1 <- mwrite M r0 (nr M) j (j + 1) u; mwrite M1 r0 (nr M) l (l + 1) v.

(** [self[(a,b)] != T::zero()], [self[(a,b)].divides(self[(c,d)])], [a.euclid_div(b).0] *)
Definition nonzeroM (M : mat Z) (a b : nat) : option bool := do x <- mget M a b; Some (negb (x =? 0)%Z).
Definition dividesM (M : mat Z) (a b c d : nat) : option bool := do x <- mget M a b; do y <- mget M c d; divides ideal x y.
Definition equalsM (M : mat Z) (a b : nat) (v : Z) : option bool := do x <- mget M a b; Some (x =? v)%Z.
Definition quotM (a b : Z) : option Z := do qr <- euclid_div ideal a b; Some (fst qr).

(** alg/src/lin_alg/matrix_impl.rs:884-887 [(j..self.size().1).find(|&l| (i..self.size().0).any(|k| self[(k, l)] != T::zero()))] *)
Definition find_col (M : mat Z) (i j : nat) : option (option nat) :=
  findM (fun l => anyM (fun k => nonzeroM M k l) (rng i (nr M))) (rng j (nc M)).

(** alg/src/lin_alg/matrix_impl.rs:911-938: one pass over [k in i+1..self.size().0]. *)
Definition improve_row_step (i j : nat) (st : snf) (k : nat) : option snf :=
  do dv <- dividesM (sS st) i j k j;
  if dv then Some st else
  do a <- mget (sS st) i j; do b <- mget (sS st) k j;
  do gxy <- bezout_identity ideal a b;
  let gcd := fst (fst gxy) in let x := snd (fst gxy) in let y := snd gxy in
  do s <- quotM a gcd; do t <- quotM b gcd;
  do S' <- block_rows (sS st) i k j x y (- t) s;
  do R' <- block_rows (sR st) i k 0 x y (- t) s;
  do Ri' <- block_cols (sRi st) i k 0 s t (- y) x;
  let st' := Snf S' R' Ri' (sC st) (sCi st) in
  do _ <- assertM (equalsM S' i j gcd);
  Some st'.
(** alg/src/lin_alg/matrix_impl.rs:945-972: one pass over [l in j+1..self.size().1]. *)
Definition improve_col_step (i j : nat) (st : snf) (l : nat) : option snf :=
  do dv <- dividesM (sS st) i j i l;
  if dv then Some st else
  do a <- mget (sS st) i j; do b <- mget (sS st) i l;
  do gxy <- bezout_identity ideal a b;
  let gcd := fst (fst gxy) in let x := snd (fst gxy) in let y := snd gxy in
  do s <- quotM a gcd; do t <- quotM b gcd;
  do S' <- block_cols (sS st) j l i x y (- t) s;
  do C' <- block_cols (sC st) j l 0 x y (- t) s;
  do Ci' <- block_rows (sCi st) j l 0 s t (- y) x;
  let st' := Snf S' (sR st) (sRi st) C' Ci' in
  do _ <- assertM (equalsM S' i j gcd);
  Some st'.
(** alg/src/lin_alg/matrix_impl.rs:909-978: the [while] loop that improves the pivot at (i,j). *)
Definition not_divides_some (i j : nat) (M : mat Z) : option bool :=
  do b1 <- anyM (fun k => do d <- dividesM M i j k j; Some (negb d)) (rng (i + 1) (nr M));
  if b1 then Some true else anyM (fun l => do d <- dividesM M i j i l; Some (negb d)) (rng (j + 1) (nc M)).
Fixpoint improve (fuel : nat) (i j : nat) (st : snf) : option snf :=
  match fuel with
  | O => None
  | S f =>
      do c <- not_divides_some i j (sS st);
      if c then
        do st1 <- foldM (improve_row_step i j) (rng (i + 1) (nr (sS st))) st;
        do _ <- assertM (allM (fun k => dividesM (sS st1) i j k j) (rng (i + 1) (nr (sS st))));
        do st2 <- foldM (improve_col_step i j) (rng (j + 1) (nc (sS st))) st1;
        do _ <- assertM (allM (fun l => dividesM (sS st2) i j i l) (rng (j + 1) (nc (sS st))));
        improve f i j st2
      else Some st
  end.

(** alg/src/lin_alg/matrix_impl.rs:981-988 *)
Definition elim_row_step (i j : nat) (st : snf) (k : nat) : option snf :=
  do nz <- nonzeroM (sS st) k j;
  if nz then
    do a <- mget (sS st) k j; do p <- mget (sS st) i j;
    do ratio <- quotM a p;
    do S' <- row_operation (sS st) k i (- ratio)%Z;
    do R' <- row_operation (sR st) k i (- ratio)%Z;
    do Ri' <- col_operation (sRi st) i k ratio;
    Some (Snf S' R' Ri' (sC st) (sCi st))
  else Some st.
(** alg/src/lin_alg/matrix_impl.rs:990-997 *)
Definition elim_col_step (i j : nat) (st : snf) (l : nat) : option snf :=
  do nz <- nonzeroM (sS st) i l;
  if nz then
    do a <- mget (sS st) i l; do p <- mget (sS st) i j;
    do ratio <- quotM a p;
    do S' <- col_operation (sS st) l j (- ratio)%Z;
    do C' <- col_operation (sC st) l j (- ratio)%Z;
    do Ci' <- row_operation (sCi st) j l ratio;
    Some (Snf S' (sR st) (sRi st) C' Ci')
  else Some st.

(** Fuel for the pivot-improving loop: the absolute value of the pivot strictly decreases. *)
Definition improve_fuel (i j : nat) (M : mat Z) : nat :=
  match mget M i j with Some p => S (Z.abs_nat p) | None => 1 end.

(** alg/src/lin_alg/matrix_impl.rs:882-1000: the main [while] loop. *)
Fixpoint pivot_loop (fuel : nat) (i j : nat) (st : snf) : option snf :=
  if (i <? nr (sS st)) && (j <? nc (sS st)) then
    match fuel with
    | O => None
    | S f =>
        do oj <- find_col (sS st) i j;
        match oj with
        | None => Some st
        | Some j =>
            do ol <- find_col (sS st) i j;
            match ol with
            | None => None
            | Some l =>
                do S1 <- swap_cols (sS st) j l; do C1 <- swap_cols (sC st) j l; do Ci1 <- swap_rows (sCi st) j l;
                let st1 := Snf S1 (sR st) (sRi st) C1 Ci1 in
                do nz <- nonzeroM (sS st1) i j;
                do st2 <- (if nz then Some st1 else
                  do ok <- findM (fun k => nonzeroM (sS st1) k j) (rng i (nr (sS st1)));
                  match ok with
                  | None => None
                  | Some k =>
                      do S2 <- swap_rows (sS st1) i k; do R2 <- swap_rows (sR st1) i k; do Ri2 <- swap_cols (sRi st1) i k;
                      Some (Snf S2 R2 Ri2 (sC st1) (sCi st1))
                  end);
                do _ <- assertM (nonzeroM (sS st2) i j);
                do st3 <- improve (improve_fuel i j (sS st2)) i j st2;
                do st4 <- foldM (elim_row_step i j) (rng (i + 1) (nr (sS st3))) st3;
                do st5 <- foldM (elim_col_step i j) (rng (j + 1) (nc (sS st4))) st4;
                pivot_loop f (i + 1) (j + 1) st5
            end
        end
    end
  else Some st.

(** alg/src/lin_alg/matrix_impl.rs:1004-1020: bring the pivots to the diagonal; the list is what is left of [0..min]. *)
Fixpoint diag_loop (rs : list nat) (st : snf) : option snf :=
  match rs with
  | [] => Some st
  | r :: rs =>
      do nz <- nonzeroM (sS st) r r;
      if nz then diag_loop rs st else
      do os <- findM (fun s => nonzeroM (sS st) r s) (rng (r + 1) (nc (sS st)));
      match os with
      | None => Some st
      | Some s =>
          do v <- mget (sS st) r s;
          do S1 <- mset (sS st) r r v; do S2 <- mset S1 r s 0%Z;
          do C' <- swap_cols (sC st) r s; do Ci' <- swap_rows (sCi st) s r;
          diag_loop rs (Snf S2 (sR st) (sRi st) C' Ci')
      end
  end.

(** alg/src/lin_alg/matrix_impl.rs:1024-1027 [rank]. *)
Definition snf_rank (M : mat Z) : option nat :=
  do o <- findM (fun r => equalsM M r r 0%Z) (rng 0 (Nat.min (nr M) (nc M)));
  Some (match o with Some r => r | None => Nat.min (nr M) (nc M) end).

(** alg/src/lin_alg/matrix_impl.rs:1031-1067: body of the double loop that enforces divisibility.
    Note the last update of [c_op_inv]: the arguments are (s, r), not (r, s). *)
Definition divis_step (r : nat) (st : snf) (s : nat) : option snf :=
  do dv <- dividesM (sS st) r r s s;
  if dv then Some st else
  do S1 <- col_operation (sS st) r s 1%Z;
  do C1 <- col_operation (sC st) r s 1%Z;
  do Ci1 <- row_operation (sCi st) s r (- 1)%Z;
  do a <- mget S1 r r; do b <- mget S1 s r;
  do gxy <- bezout_identity ideal a b;
  let gcd := fst (fst gxy) in let x := snd (fst gxy) in let y := snd gxy in
  do z <- quotM a gcd; do w <- quotM b gcd;
  do S2 <- block_rows S1 r s 0 x y (- w) z;
  do R2 <- block_rows (sR st) r s 0 x y (- w) z;
  do Ri2 <- block_cols (sRi st) r s 0 z w (- y) x;
  do S3 <- col_operation S2 s r (- w * y)%Z;
  do C3 <- col_operation C1 s r (- w * y)%Z;
  do Ci3 <- row_operation Ci1 s r (w * y)%Z;
  do _ <- assertM (equalsM S3 r r gcd);
  do _ <- assertM (equalsM S3 r s 0%Z);
  do _ <- assertM (equalsM S3 s r 0%Z);
  Some (Snf S3 R2 Ri2 C3 Ci3).
Definition divis_loop (rank : nat) (st : snf) : option snf :=
  foldM (fun st r => foldM (divis_step r) (rng (r + 1) rank) st) (rng 0 rank) st.

(** alg/src/lin_alg/matrix_impl.rs:820-1020, up to and including the diagonal. *)
Definition snf_pivots (M : mat Z) : option snf :=
  do R <- midentity (nr M); do Ri <- midentity (nr M); do C <- midentity (nc M); do Ci <- midentity (nc M);
  do st1 <- pivot_loop (nr M) 0 0 (Snf M R Ri C Ci);
  diag_loop (rng 0 (Nat.min (nr M) (nc M))) st1.
(** alg/src/lin_alg/matrix_impl.rs:820-1073 [smith_normal_form] = (r_op_inv, r_op, self, c_op, c_op_inv). *)
Definition smith_normal_form (M : mat Z) : option (mat Z * mat Z * mat Z * mat Z * mat Z) :=
  do st2 <- snf_pivots M;
  do rank <- snf_rank (sS st2);
  do st3 <- divis_loop rank st2;
  do _ <- assertM (allM (fun i => allM (fun k => dividesM (sS st3) i i k k) (rng (i + 1) rank)) (rng 0 rank));
  Some (sRi st3, sR st3, sS st3, sC st3, sCi st3).
