(** Specification vocabulary for the util properties: ordinary finite sets of indices, with no
    reference to words or masks. *)
From Coq Require Import List Arith NArith Bool.
From Verif Require Import UtilModel.
Import ListNotations.

(** An abstract pool: a length and a duplicate-free list of members (order irrelevant). *)
Record aset := mkA { a_len : nat; a_mem : list nat }.

Definition mem (i : nat) (l : list nat) : bool := existsb (Nat.eqb i) l.
Definition a_add (s : list nat) (i : nat) : list nat := if mem i s then s else i :: s.
Definition a_remove (s : list nat) (i : nat) : list nat := filter (fun j => negb (j =? i)) s.

(** All ways a program can build a pool (values may be cloned and re-used: a tree of operations). *)
Inductive pexp :=
| ENew (len : nat)
| EFrom (len : nat) (l : list nat)
| EAdd (e : pexp) (i : nat)
| ERemove (e : pexp) (i : nat)
| EFill (e : pexp)
| EResize (e : pexp) (n : nat)
| EUnion (e f : pexp)
| EInter (e f : pexp).

Definition bind {A B} (x : option A) (f : A -> option B) : option B :=
  match x with None => None | Some a => f a end.

(** The Rust program's result. *)
Fixpoint run_pool (e : pexp) : option pool :=
  match e with
  | ENew n => Some (pool_new n)
  | EFrom n l => pool_from n l
  | EAdd e i => bind (run_pool e) (fun p => pool_add p i)
  | ERemove e i => bind (run_pool e) (fun p => pool_remove p i)
  | EFill e => bind (run_pool e) pool_fill
  | EResize e n => bind (run_pool e) (fun p => Some (pool_resize p n))
  | EUnion e f => bind (run_pool e) (fun p => bind (run_pool f) (fun q => pool_union p q))
  | EInter e f => bind (run_pool e) (fun p => bind (run_pool f) (fun q => pool_inter p q))
  end.

(** The same operations on mathematical sets; [None] = the documented panics (index out of range,
    different lengths). Shrinking resize is a no-op. *)
Fixpoint run_set (e : pexp) : option aset :=
  match e with
  | ENew n => Some (mkA n [])
  | EFrom n l => if forallb (fun i => i <? n) l then Some (mkA n (nodup Nat.eq_dec l)) else None
  | EAdd e i => bind (run_set e) (fun s =>
        if i <? a_len s then Some (mkA (a_len s) (a_add (a_mem s) i)) else None)
  | ERemove e i => bind (run_set e) (fun s =>
        if i <? a_len s then Some (mkA (a_len s) (a_remove (a_mem s) i)) else None)
  | EFill e => bind (run_set e) (fun s => Some (mkA (a_len s) (seq 0 (a_len s))))
  | EResize e n => bind (run_set e) (fun s =>
        Some (if n <? a_len s then s else mkA n (a_mem s)))
  | EUnion e f => bind (run_set e) (fun s => bind (run_set f) (fun t =>
        if a_len s =? a_len t then Some (mkA (a_len s) (nodup Nat.eq_dec (a_mem s ++ a_mem t))) else None))
  | EInter e f => bind (run_set e) (fun s => bind (run_set f) (fun t =>
        if a_len s =? a_len t then Some (mkA (a_len s) (filter (fun i => mem i (a_mem t)) (a_mem s))) else None))
  end.

(** Number of one bits, as a count over bit positions. *)
Definition popcount (n : nat) (x : N) : nat :=
  length (filter (fun i => N.testbit x (N.of_nat i)) (seq 0 n)).

(** Strictly increasing lists of indices below [n]. *)
Inductive strictly_inc : list nat -> Prop :=
| si_nil : strictly_inc []
| si_one x : strictly_inc [x]
| si_cons x y l : x < y -> strictly_inc (y :: l) -> strictly_inc (x :: y :: l).

(** Lexicographic order on equally long tuples. *)
Inductive lex_lt : list nat -> list nat -> Prop :=
| lex_here x y l m : x < y -> length l = length m -> lex_lt (x :: l) (y :: m)
| lex_next x l m : lex_lt l m -> lex_lt (x :: l) (x :: m).

Inductive lex_sorted : list (list nat) -> Prop :=
| ls_nil : lex_sorted []
| ls_one x : lex_sorted [x]
| ls_cons x y l : lex_lt x y -> lex_sorted (y :: l) -> lex_sorted (x :: y :: l).

(** Histories of a labelled set and the abstract set of labels. *)
Inductive lop (T : Type) := LAdd (x : T) | LRemove (x : T).
Arguments LAdd {T}. Arguments LRemove {T}.

Section L.
  Context {T : Type} (eqb : T -> T -> bool).
  Definition lstep (s : option (lset T)) (o : lop T) : option (lset T) :=
    bind s (fun s => match o with LAdd x => lset_add eqb s x | LRemove x => lset_remove eqb s x end).
  (** Is [x] in the set after the history (latest operation on [x] wins)? *)
  Definition after (h : list (lop T)) (x : T) : bool :=
    fold_left (fun b o => match o with
                          | LAdd y => if eqb y x then true else b
                          | LRemove y => if eqb y x then false else b
                          end) h false.
  Definition target (o : lop T) : T := match o with LAdd x => x | LRemove x => x end.
End L.

(** A k-combination of positions of a slice of length [n]. *)
Definition combination (n k : nat) (c : list nat) : Prop :=
  strictly_inc c /\ length c = k /\ forall i, In i c -> i < n.

(** The elements of [data] at the given positions. *)
Definition pick {A} (data : list A) (ix : list nat) : list A :=
  flat_map (fun i => match nth_error data i with Some x => [x] | None => [] end) ix.
