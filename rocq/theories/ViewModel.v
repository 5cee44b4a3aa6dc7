(** Model of the strided-view layer of alg/src/lin_alg/matrix_impl.rs: fat-pointer encoding, sub-matrix views,
    element access and writes, on an explicit memory (a list of cells standing for one allocation).
    Simplifications: an address is a cell number inside the allocation; [usize] is 64 bits wide for the metadata word and
    unbounded for index arithmetic (sizes and strides are 16-bit fields, so products stay far below 2^64). *)
From Coq Require Import List Arith NArith Bool.
From Verif Require Import PidModel.
Import ListNotations.
Open Scope nat_scope.

(** 64-bit shift left. *)
Definition shl64 (x k : N) : N := ((N.shiftl x k) mod 2 ^ 64)%N.

(** alg/src/lin_alg/matrix_impl.rs:23-30 [compress]; [data_offset] = 64/4 = 16. *)
Definition compress (size offsets : N * N) : N :=
  N.lor (N.lor (N.lor (shl64 (fst size) (16 * 3)) (shl64 (snd size) (16 * 2))) (shl64 (fst offsets) (16 * 1))) (snd offsets).
(** alg/src/lin_alg/matrix_impl.rs:32-39 [extract]; the window is [!(!0 << 16)] = 2^16 - 1. *)
Definition window : N := (2 ^ 16 - 1)%N.
Definition extract (data : N) : (N * N) * (N * N) :=
  ((N.land (N.shiftr data (16 * 3)) window, N.land (N.shiftr data (16 * 2)) window),
   (N.land (N.shiftr data (16 * 1)) window, N.land data window)).

(** A reference to a [SubMatrix]: data address (cell number) and metadata word. alg/src/lin_alg/matrix_impl.rs:41-89. *)
Record view := { v_addr : nat; v_meta : N }.
Definition from_raw_parts (addr : nat) (size offsets : nat * nat) : view :=
  {| v_addr := addr;
     v_meta := compress (N.of_nat (fst size), N.of_nat (snd size)) (N.of_nat (fst offsets), N.of_nat (snd offsets)) |}.
(** alg/src/lin_alg/matrix_impl.rs:92-94, 102-104 [size], [offsets]. *)
Definition v_size (v : view) : nat * nat := let s := fst (extract (v_meta v)) in (N.to_nat (fst s), N.to_nat (snd s)).
Definition v_offsets (v : view) : nat * nat := let s := snd (extract (v_meta v)) in (N.to_nat (fst s), N.to_nat (snd s)).

(** alg/src/lin_alg/matrix_impl.rs:61-75 [slice_from_sub_matrix]: the length given to the intermediate slice;
    [size.0 * offsets.0 - 1] underflows (panics) on a zero product. *)
Definition slice_len (v : view) : option nat :=
  let (s, o) := (v_size v, v_offsets v) in
  if (fst s * fst o =? 0) || (snd s * snd o =? 0) then None
  else Some ((fst s * fst o - 1) + (snd s * snd o - 1) + 1).
(** alg/src/lin_alg/matrix_impl.rs:107-114 [as_ptr], [as_mut_ptr]: go through that slice. *)
Definition as_ptr (v : view) : option nat := do _ <- slice_len v; Some (v_addr v).

(** alg/src/lin_alg/matrix_impl.rs:117-124 [SubMatrix::transpose]. *)
Definition v_transpose (v : view) : view :=
  let (s, o) := (v_size v, v_offsets v) in from_raw_parts (v_addr v) (snd s, fst s) (snd o, fst o).

(** The range types accepted as an index. alg/src/lin_alg/matrix_impl.rs:193-228. *)
Inductive range := RIndex (i : nat) | RFull | RRange (a b : nat) | RFrom (a : nat) | RIncl (a b : nat) | RTo (b : nat) | RToIncl (b : nat).
Inductive bound := Included (x : nat) | Excluded (x : nat) | Unbounded.
Definition start_bound (r : range) : bound :=
  match r with
  | RIndex i => Included i | RFull => Unbounded | RRange a _ => Included a | RFrom a => Included a
  | RIncl a _ => Included a | RTo _ => Unbounded | RToIncl _ => Unbounded
  end.
Definition end_bound (r : range) : bound :=
  match r with
  | RIndex i => Included i | RFull => Unbounded | RRange _ b => Excluded b | RFrom _ => Unbounded
  | RIncl _ b => Included b | RTo b => Excluded b | RToIncl b => Included b
  end.
(** alg/src/lin_alg/matrix_impl.rs:231-245 [unpack_bounds_for_sub]. *)
Definition unpack_bounds (r : range) (size : nat) : option (nat * nat) :=
  do s <- match start_bound r with Included x => Some x | Excluded _ => None | Unbounded => Some 0 end;
  let e := match end_bound r with Included x => x + 1 | Excluded x => x | Unbounded => size end in
  Some (s, e).
(** alg/src/lin_alg/matrix_impl.rs:247-254 [check_bounds_for_sub]; [end - start] underflows (panics) when start > end. *)
Definition check_bounds (s e size : nat) : option unit :=
  if e <? s then None else if (e - s <=? size) && (e <=? size) then Some tt else None.

(** alg/src/lin_alg/matrix_impl.rs:256-296 [Index<(range, range)>] and [IndexMut]. *)
Definition v_sub (v : view) (rows cols : range) : option view :=
  do r <- unpack_bounds rows (fst (v_size v));
  do c <- unpack_bounds cols (snd (v_size v));
  do _ <- check_bounds (fst r) (snd r) (fst (v_size v));
  do _ <- check_bounds (fst c) (snd c) (snd (v_size v));
  do p <- as_ptr v;
  Some (from_raw_parts (p + (fst (v_offsets v) * fst r + snd (v_offsets v) * fst c))
          (snd r - fst r, snd c - fst c) (v_offsets v)).

(** alg/src/lin_alg/matrix_impl.rs:308-330: the cell accessed by [self[(r, c)]] (panics out of bounds). *)
Definition v_cell (v : view) (r c : nat) : option nat :=
  if (r <? fst (v_size v)) && (c <? snd (v_size v)) then
    do p <- as_ptr v; Some (p + (r * fst (v_offsets v) + c * snd (v_offsets v)))
  else None.

Section Mem.
  Context {T : Type}.
  (** Reading and writing one cell; outside the allocation is undefined behaviour, modelled as [None]. *)
  Definition load (mem : list T) (a : nat) : option T := nth_error mem a.
  Definition store (mem : list T) (a : nat) (x : T) : option (list T) :=
    if a <? length mem then Some (firstn a mem ++ x :: skipn (S a) mem) else None.
  Definition v_read (mem : list T) (v : view) (r c : nat) : option T := do a <- v_cell v r c; load mem a.
  Definition v_write (mem : list T) (v : view) (r c : nat) (x : T) : option (list T) := do a <- v_cell v r c; store mem a x.
End Mem.

(** alg/src/lin_alg.rs:7-13 and matrix_impl.rs:594-603 [Matrix::new]: an owner of [n * m] cells with strides (m, 1). *)
Record owner := { o_size : nat * nat; o_offsets : nat * nat }.
Definition owner_new (n m : nat) : owner := {| o_size := (n, m); o_offsets := (m, 1) |}.
(** alg/src/lin_alg/matrix_impl.rs:674-680 [Matrix::transpose]. *)
Definition owner_transpose (o : owner) : owner :=
  {| o_size := (snd (o_size o), fst (o_size o)); o_offsets := (snd (o_offsets o), fst (o_offsets o)) |}.
(** alg/src/lin_alg/matrix_impl.rs:717-732 [Deref], [DerefMut]. *)
Definition owner_view (o : owner) : view := from_raw_parts 0 (o_size o) (o_offsets o).

(** A chain of view operations as a user writes them: [m[(rows, cols)]] and [.transpose()]. *)
Inductive vop := VSub (rows cols : range) | VTranspose.
Fixpoint run_vops (v : view) (ops : list vop) : option view :=
  match ops with
  | [] => Some v
  | VSub r c :: t => do v' <- v_sub v r c; run_vops v' t
  | VTranspose :: t => run_vops (v_transpose v) t
  end.
