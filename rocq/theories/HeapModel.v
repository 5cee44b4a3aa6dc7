(** Model of the memory management of [Matrix<T>] (alg/src/lin_alg/matrix_impl.rs): allocation of uninitialised cells, [ptr::write],
    assignment through a reference (which runs the destructor of the old value), reading, and [Drop].  The addressing is that of
    ViewModel.v (packed sizes and strides included).
    The type [T] of the entries has a destructor or not ([nd], [std::mem::needs_drop]); its size is not zero.
    Undefined behaviour, [Undef]: an allocation of no bytes; reading or destroying a cell that was never written; an access outside
    the allocation or after it was freed; freeing twice or with another layout.  A panic ends the program; the unwinding is not modelled.
    Not modelled: exhaustion of memory, the intermediate slice references (C31_slice_refuted), the random constructors (C92). *)
From Coq Require Import List Arith NArith Bool.
From Verif Require Import PidModel MatModel ViewModel.
Import ListNotations.
Open Scope nat_scope.

(** The outcome of a piece of program; [Reject]: the compiler does not accept it (use of a moved value, two borrows). *)
Inductive res (A : Type) := Ok (a : A) | Panic | Undef | Reject.
Arguments Ok {A}. Arguments Panic {A}. Arguments Undef {A}. Arguments Reject {A}.
Definition rbind {A B} (x : res A) (f : A -> res B) : res B :=
  match x with Ok a => f a | Panic => Panic | Undef => Undef | Reject => Reject end.
Notation "'dr' x <- e ; k" := (rbind e (fun x => k)) (at level 200, x pattern, e at level 100, k at level 200, right associativity).
(** A panic of a checked computation. *)
Definition or_panic {A} (o : option A) : res A := match o with Some a => Ok a | None => Panic end.
Fixpoint foldR {A S} (f : S -> A -> res S) (l : list A) (s : S) : res S :=
  match l with [] => Ok s | x :: t => dr s' <- f s x; foldR f t s' end.
Fixpoint mapR {A B} (f : A -> res B) (l : list A) : res (list B) :=
  match l with [] => Ok [] | x :: t => dr y <- f x; dr r <- mapR f t; Ok (y :: r) end.
(** [for i in 0..n { for j in 0..m { .. } }] *)
Definition cells (n m : nat) : list (nat * nat) := list_prod (seq 0 n) (seq 0 m).

Section Heap.
  Context {T : Type} {O : Ops T}.
  (** [std::mem::needs_drop::<T>()] *)
  Variable nd : bool.

  (** The blocks allocated so far ([None]: freed), each a list of cells ([None]: never written); the number of values that were
      stored, have a destructor, and whose destructor will never run. *)
  Record heap := Heap { h_blocks : list (option (list (option T))); h_lost : nat }.
  (** alg/src/lin_alg.rs:7-13 [struct Matrix]: a pointer with a size and strides. *)
  Record owned := Owned { o_block : nat; o_shape : owner }.
  (** A reference to a [SubMatrix]: the block it points into and the view. *)
  Definition href : Type := nat * view.
  (** matrix_impl.rs:717-732 [Deref], [DerefMut]. *)
  Definition deref (o : owned) : href := (o_block o, owner_view (o_shape o)).

  Definition block (h : heap) (b : nat) : res (list (option T)) :=
    match nth_error (h_blocks h) b with Some (Some c) => Ok c | _ => Undef end.
  Definition set_block (h : heap) (b : nat) (c : option (list (option T))) (lost : nat) : heap :=
    Heap (lset (h_blocks h) b c) (h_lost h + lost).

  (** matrix_impl.rs:317-323 [self[(i, j)]], as a value ([clone]). *)
  Definition rd (h : heap) (r : href) (i j : nat) : res T :=
    dr a <- or_panic (v_cell (snd r) i j); dr c <- block h (fst r);
    match nth_error c a with Some (Some x) => Ok x | _ => Undef end.
  (** matrix_impl.rs:325-330 and [self[(i, j)] = x]: the old value is destroyed. *)
  Definition assign (h : heap) (r : href) (i j : nat) (x : T) : res heap :=
    dr a <- or_panic (v_cell (snd r) i j); dr c <- block h (fst r);
    match nth_error c a with
    | Some (Some _) => Ok (set_block h (fst r) (Some (lset c a (Some x))) 0)
    | Some None => if nd then Undef else Ok (set_block h (fst r) (Some (lset c a (Some x))) 0)
    | None => Undef
    end.
  (** [self[(i, j)] += x] and friends: the operation works on the value in place. *)
  Definition modify (h : heap) (r : href) (i j : nat) (f : T -> T) : res heap :=
    dr x <- rd h r i j; assign h r i j (f x).
  (** matrix_impl.rs:682-684 [Matrix::write]: [ptr::write], no bounds check, the old value is not destroyed. *)
  Definition write (h : heap) (o : owned) (i j : nat) (x : T) : res heap :=
    let a := i * fst (o_offsets (o_shape o)) + j * snd (o_offsets (o_shape o)) in
    dr c <- block h (o_block o);
    match nth_error c a with
    | Some old => Ok (set_block h (o_block o) (Some (lset c a (Some x))) (match old with Some _ => if nd then 1 else 0 | None => 0 end))
    | None => Undef
    end.

  (** matrix_impl.rs:594-621 [Matrix::new], [alloc]: [alloc::alloc] with a layout of size zero is undefined behaviour. *)
  Definition new (h : heap) (n m : nat) : res (heap * owned) :=
    if n * m =? 0 then Undef
    else Ok (Heap (h_blocks h ++ [Some (repeat None (n * m))]) (h_lost h), Owned (length (h_blocks h)) (owner_new n m)).
  (** matrix_impl.rs:735-748 [Drop]: frees the block with the layout of the present size; no destructor of an entry runs. *)
  Definition free (h : heap) (o : owned) : res heap :=
    dr c <- block h (o_block o);
    if fst (o_size (o_shape o)) * snd (o_size (o_shape o)) =? length c
    then Ok (set_block h (o_block o) None (if nd then length (filter (fun x => match x with Some _ => true | None => false end) c) else 0))
    else Undef.

  (** A new matrix filled by [out[(i,j)] = f(i,j)], or by [out.write((i,j), f(i,j))]. *)
  Definition fill_assign (h : heap) (o : owned) (n m : nat) (f : heap -> nat -> nat -> res T) : res heap :=
    foldR (fun h ij => dr x <- f h (fst ij) (snd ij); assign h (deref o) (fst ij) (snd ij) x) (cells n m) h.
  Definition fill_write (h : heap) (o : owned) (n m : nat) (f : heap -> nat -> nat -> res T) : res heap :=
    foldR (fun h ij => dr x <- f h (fst ij) (snd ij); write h o (fst ij) (snd ij) x) (cells n m) h.

  (** matrix_impl.rs:655-672 [from_array]; the second guard never fires: the first row has the length of the first row. *)
  Definition from_array (h : heap) (v : list (list T)) : res (heap * owned) :=
    match v with
    | [] => Panic
    | [] :: _ => Panic
    | (_ :: _) as r0 :: _ =>
        if forallb (fun r => negb (length r =? length r0)) v then Panic else
        dr (h, o) <- new h (length v) (length r0);
        dr h <- fill_assign h o (length v) (length r0) (fun _ i j => or_panic (do r <- nth_error v i; nth_error r j));
        Ok (h, o)
    end.
  (** matrix_impl.rs:800-809 [zero]. *)
  Definition zero (h : heap) (n m : nat) : res (heap * owned) :=
    if (0 <? n) && (0 <? m) then
      dr (h, o) <- new h n m; dr h <- fill_write h o n m (fun _ _ _ => Ok t0); Ok (h, o)
    else Panic.
  (** matrix_impl.rs:811-816 [identity]. *)
  Definition identity (h : heap) (n : nat) : res (heap * owned) :=
    if 0 <? n then
      dr (h, o) <- zero h n n; dr h <- foldR (fun h i => assign h (deref o) i i t1) (seq 0 n) h; Ok (h, o)
    else Panic.
  (** matrix_impl.rs:140-149, 751-754 [as_matrix], [clone]. *)
  Definition as_matrix (h : heap) (r : href) : res (heap * owned) :=
    let s := v_size (snd r) in
    dr (h, o) <- new h (fst s) (snd s); dr h <- fill_write h o (fst s) (snd s) (fun h i j => rd h r i j); Ok (h, o).
  (** matrix_impl.rs:332-350 [Add], [Sub] for [&SubMatrix]. *)
  Definition zip_with (op : T -> T -> T) (h : heap) (a b : href) : res (heap * owned) :=
    let s := v_size (snd a) in
    if (fst s =? fst (v_size (snd b))) && (snd s =? snd (v_size (snd b))) then
      dr (h, o) <- new h (fst s) (snd s);
      dr h <- fill_assign h o (fst s) (snd s) (fun h i j => dr x <- rd h a i j; dr y <- rd h b i j; Ok (op x y)); Ok (h, o)
    else Panic.
  (** matrix_impl.rs:126-138 [dot]. *)
  Definition dot (h : heap) (a b : href) : res T :=
    let s := v_size (snd a) in let t := v_size (snd b) in
    if (fst s =? 1) && (snd t =? 1) && (snd s =? fst t) then
      dr l <- mapR (fun i => dr x <- rd h a 0 i; dr y <- rd h b i 0; Ok (tmul x y)) (seq 0 (snd s)); Ok (fold_left tadd l t0)
    else Panic.
  (** matrix_impl.rs:256-296 [self[(rows, cols)]]. *)
  Definition sub (r : href) (rows cols : range) : res href := dr v <- or_panic (v_sub (snd r) rows cols); Ok (fst r, v).
  (** matrix_impl.rs:388-399 [Mul] for [&SubMatrix]. *)
  Definition mul (h : heap) (a b : href) : res (heap * owned) :=
    let n := fst (v_size (snd a)) in let m := snd (v_size (snd b)) in
    dr (h, o) <- new h n m;
    dr h <- fill_assign h o n m (fun h i j => dr x <- sub a (RIndex i) RFull; dr y <- sub b RFull (RIndex j); dot h x y); Ok (h, o).
  (** matrix_impl.rs:487-498 [Mul<T>] for [&SubMatrix]. *)
  Definition scale (h : heap) (a : href) (c : T) : res (heap * owned) :=
    let s := v_size (snd a) in
    dr (h, o) <- new h (fst s) (snd s); dr h <- fill_assign h o (fst s) (snd s) (fun h i j => dr x <- rd h a i j; Ok (tmul x c)); Ok (h, o).

  (** matrix_impl.rs:353-385 [AddAssign], [SubAssign]. *)
  Definition zip_assign (op : T -> T -> T) (h : heap) (a b : href) : res heap :=
    let s := v_size (snd a) in
    if (fst s =? fst (v_size (snd b))) && (snd s =? snd (v_size (snd b))) then
      foldR (fun h ij => dr y <- rd h b (fst ij) (snd ij); modify h a (fst ij) (snd ij) (fun x => op x y)) (cells (fst s) (snd s)) h
    else Panic.
  (** matrix_impl.rs:527-541 [MulAssign<T>]. *)
  Definition scale_assign (h : heap) (a : href) (c : T) : res heap :=
    let s := v_size (snd a) in foldR (fun h ij => modify h a (fst ij) (snd ij) (fun x => tmul x c)) (cells (fst s) (snd s)) h.
  (** matrix_impl.rs:177-188 [SubMatrix::write]. *)
  Definition write_view (h : heap) (a b : href) : res heap :=
    let s := v_size (snd a) in
    if (fst s =? fst (v_size (snd b))) && (snd s =? snd (v_size (snd b))) then
      foldR (fun h ij => dr y <- rd h b (fst ij) (snd ij); assign h a (fst ij) (snd ij) y) (cells (fst s) (snd s)) h
    else Panic.
  (** matrix_impl.rs:151-165 [swap_rows], [swap_cols]. *)
  Definition exchange (h : heap) (a : href) (p q : nat * nat) : res heap :=
    dr x <- rd h a (fst p) (snd p); dr y <- rd h a (fst q) (snd q);
    dr h <- assign h a (fst p) (snd p) y; assign h a (fst q) (snd q) x.
  Definition swap_rows (h : heap) (a : href) (r1 r2 : nat) : res heap :=
    foldR (fun h j => exchange h a (r1, j) (r2, j)) (seq 0 (snd (v_size (snd a)))) h.
  Definition swap_cols (h : heap) (a : href) (c1 c2 : nat) : res heap :=
    foldR (fun h i => exchange h a (i, c1) (i, c2)) (seq 0 (fst (v_size (snd a)))) h.
  (** matrix_impl.rs:167-175 [row_operation], [col_operation]: the scaled row (column) is a temporary matrix, dropped at the end. *)
  Definition row_operation (h : heap) (a : href) (r1 r2 : nat) (c : T) : res heap :=
    dr v <- sub a (RIndex r2) RFull; dr (h, o) <- scale h v c;
    dr h <- foldR (fun h j => dr y <- rd h (deref o) 0 j; modify h a r1 j (fun x => tadd x y)) (seq 0 (snd (v_size (snd a)))) h;
    free h o.
  Definition col_operation (h : heap) (a : href) (c1 c2 : nat) (c : T) : res heap :=
    dr v <- sub a RFull (RIndex c2); dr (h, o) <- scale h v c;
    dr h <- foldR (fun h i => dr y <- rd h (deref o) i 0; modify h a i c1 (fun x => tadd x y)) (seq 0 (fst (v_size (snd a)))) h;
    free h o.

  (** matrix_impl.rs:559-573 [==] of views; [eqb] is [==] of the entries. *)
  Fixpoint all_equal (eqb : T -> T -> bool) (h : heap) (a b : href) (l : list (nat * nat)) : res bool :=
    match l with
    | [] => Ok true
    | (i, j) :: l => dr x <- rd h a i j; dr y <- rd h b i j; if eqb x y then all_equal eqb h a b l else Ok false
    end.
  Definition equal (eqb : T -> T -> bool) (h : heap) (a b : href) : res bool :=
    let s := v_size (snd a) in
    if (fst s =? fst (v_size (snd b))) && (snd s =? snd (v_size (snd b))) then all_equal eqb h a b (cells (fst s) (snd s)) else Ok false.
  (** matrix_impl.rs:581-585 [==] of matrices. *)
  Definition equal_matrices (eqb : T -> T -> bool) (h : heap) (o o' : owned) : res bool := equal eqb h (deref o) (deref o').
  (** matrix_impl.rs:575-579 [==] of a view and a matrix: the body [self == rhs] compares a [&SubMatrix] with a [&Matrix], which is this
      function again; [None] after [fuel] calls. *)
  Fixpoint equal_view_matrix (fuel : nat) (eqb : T -> T -> bool) (h : heap) (a : href) (o : owned) : option (res bool) :=
    match fuel with 0 => None | S k => equal_view_matrix k eqb h a o end.

  (** Programs: a matrix is a numbered variable; a shared operand is a chain of ranges and transpositions of one, a mutable operand a chain of
      ranges ([transpose] of a view gives no mutable view). *)
  Inductive operand := Opd (x : nat) (ops : list vop).
  Inductive place := Place (x : nat) (rs : list (range * range)).
  Inductive stmt :=
  | SFromArray (v : list (list T)) | SZero (n m : nat) | SIdentity (n : nat) | SAsMatrix (a : operand)
  | SAdd (a b : operand) | SSub (a b : operand) | SMul (a b : operand) | SScale (a : operand) (c : T)
  | SSet (a : place) (i j : nat) (x : T) | SAddAssign (x : nat) (b : operand) | SSubAssign (x : nat) (b : operand) | SScaleAssign (a : place) (c : T)
  | SWrite (a : place) (b : operand) | SSwapRows (a : place) (i j : nat) | SSwapCols (a : place) (i j : nat)
  | SRowOp (a : place) (i j : nat) (c : T) | SColOp (a : place) (i j : nat) (c : T)
  | STranspose (x : nat) | SDrop (x : nat).

  Record mstate := MState { m_heap : heap; m_vars : list (option owned) }.
  Definition var (st : mstate) (x : nat) : res owned := match nth_error (m_vars st) x with Some (Some o) => Ok o | _ => Reject end.
  Definition the_ops (a : place) : list vop := let (_, rs) := a in map (fun rc => VSub (fst rc) (snd rc)) rs.
  Definition resolve (st : mstate) (x : nat) (ops : list vop) : res href :=
    dr o <- var st x; dr v <- or_panic (run_vops (owner_view (o_shape o)) ops); Ok (o_block o, v).
  Definition shared (st : mstate) (a : operand) : res href := let (x, ops) := a in resolve st x ops.
  Definition mutable (st : mstate) (a : place) : res href := let (x, _) := a in resolve st x (the_ops a).
  (** The two borrows of an assignment must be of different variables. *)
  Definition apart (x : nat) (b : operand) : res unit := let (y, _) := b in if x =? y then Reject else Ok tt.
  Definition bind_new (st : mstate) (r : res (heap * owned)) : res mstate := dr (h, o) <- r; Ok (MState h (m_vars st ++ [Some o])).
  Definition in_place (st : mstate) (r : res heap) : res mstate := dr h <- r; Ok (MState h (m_vars st)).
  Definition step (st : mstate) (s : stmt) : res mstate :=
    let h := m_heap st in
    match s with
    | SFromArray v => bind_new st (from_array h v)
    | SZero n m => bind_new st (zero h n m)
    | SIdentity n => bind_new st (identity h n)
    | SAsMatrix a => dr r <- shared st a; bind_new st (as_matrix h r)
    | SAdd a b => dr r <- shared st a; dr q <- shared st b; bind_new st (zip_with tadd h r q)
    | SSub a b => dr r <- shared st a; dr q <- shared st b; bind_new st (zip_with tsub h r q)
    | SMul a b => dr r <- shared st a; dr q <- shared st b; bind_new st (mul h r q)
    | SScale a c => dr r <- shared st a; bind_new st (scale h r c)
    | SSet a i j x => dr r <- mutable st a; in_place st (assign h r i j x)
    | SAddAssign x b => dr _ <- apart x b; dr q <- shared st b; dr r <- mutable st (Place x []); in_place st (zip_assign tadd h r q)
    | SSubAssign x b => dr _ <- apart x b; dr q <- shared st b; dr r <- mutable st (Place x []); in_place st (zip_assign tsub h r q)
    | SScaleAssign a c => dr r <- mutable st a; in_place st (scale_assign h r c)
    | SWrite a b => dr _ <- apart (let (x, _) := a in x) b; dr q <- shared st b; dr r <- mutable st a; in_place st (write_view h r q)
    | SSwapRows a i j => dr r <- mutable st a; in_place st (swap_rows h r i j)
    | SSwapCols a i j => dr r <- mutable st a; in_place st (swap_cols h r i j)
    | SRowOp a i j c => dr r <- mutable st a; in_place st (row_operation h r i j c)
    | SColOp a i j c => dr r <- mutable st a; in_place st (col_operation h r i j c)
    (** matrix_impl.rs:674-680 [Matrix::transpose], [x = x.transpose()] *)
    | STranspose x => dr o <- var st x; Ok (MState h (lset (m_vars st) x (Some (Owned (o_block o) (owner_transpose (o_shape o))))))
    | SDrop x => dr o <- var st x; dr h <- free h o; Ok (MState h (lset (m_vars st) x None))
    end.
  Definition run (prog : list stmt) : res mstate := foldR step prog (MState (Heap [] 0) []).
End Heap.
Arguments heap : clear implicits.
Arguments stmt : clear implicits.
Arguments mstate : clear implicits.
