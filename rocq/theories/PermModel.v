(** Model of alg/src/non_commutative/permutation.rs and alg/src/non_commutative.rs.
    usize indices are unbounded naturals; [None] is a panic (debug build, so debug_assert! counts) or a loop
    that ran out of the fuel given (the theorems show which). *)
From Coq Require Import List Arith ZArith Bool.
From Verif Require Import PidModel.
Import ListNotations.
Open Scope nat_scope.

(** permutation.rs:10-13 [Cycle] (the field [data]), 169-176 [Permutation] (the field [cycles]). *)
Definition cycle := list nat.
Definition perm := list cycle.

(** derived [PartialEq] (lines 10, 168) is list equality. *)
Definition cycle_eq_dec : forall c d : cycle, {c = d} + {c <> d} := list_eq_dec Nat.eq_dec.
Definition perm_eq_dec : forall p q : perm, {p = q} + {p <> q} := list_eq_dec cycle_eq_dec.

(** std [Vec::contains]. *)
Definition contains (l : list nat) (x : nat) : bool := existsb (Nat.eqb x) l.

(** permutation.rs:17-27 (and 181-191) [is_valid]: the [checker] loop. *)
Fixpoint no_repeat (checker : list nat) (l : list nat) : bool :=
  match l with
  | [] => true
  | x :: l => if contains checker x then false else no_repeat (checker ++ [x]) l
  end.

(** permutation.rs:57 [iter().enumerate().min_by_key]: the first position of the least element. *)
Fixpoint min_index (l : list nat) : option (nat * nat) :=
  match l with
  | [] => None
  | x :: l => match min_index l with
              | None => Some (0, x)
              | Some (i, m) => if x <=? m then Some (0, x) else Some (S i, m)
              end
  end.

Fixpoint take_while (f : nat -> bool) (l : list nat) : list nat :=
  match l with [] => [] | x :: l => if f x then x :: take_while f l else [] end.

(** permutation.rs:55-69 [bring_smallest_first] ([unwrap] panics on the empty cycle). *)
Definition bring_smallest_first (c : cycle) : option cycle :=
  do im <- min_index c;
  let (i, m) := im in
  if i =? 0 then Some c
  else Some (skipn i c ++ take_while (fun e => negb (e =? m)) c).

(** permutation.rs:44-53 [Cycle::from]. *)
Definition cycle_from (data : list nat) : option cycle :=
  if length data =? 1 then Some []
  else if negb (no_repeat [] data) then None
  else bring_smallest_first data.

(** permutation.rs:29-37 [Cycle::cyclic_from]. *)
Definition cycle_cyclic_from (a b : nat) : cycle :=
  let data := seq a (b - a) in if length data =? 1 then [] else data.

(** std [Iterator::position]. *)
Fixpoint position (n : nat) (l : list nat) : option nat :=
  match l with
  | [] => None
  | x :: l => if x =? n then Some 0 else option_map S (position n l)
  end.

(** permutation.rs:71-82 [Cycle::map] ([pos] is always in bounds). *)
Definition cmap (c : cycle) (n : nat) : nat :=
  match position n c with
  | None => n
  | Some pos => nth (if pos =? length c - 1 then 0 else pos + 1) c 0
  end.

(** permutation.rs:95-114 [Ord for Cycle]. *)
Definition ccmp (c d : cycle) : comparison :=
  if cycle_eq_dec c d then Eq
  else match c, d with
       | [], _ => Lt
       | _, [] => Gt
       | x :: _, y :: _ => x ?= y
       end.

(** std stable [sort] with that order (insertion sort: any stable sort gives this result). *)
Fixpoint insert_cycle (c : cycle) (l : list cycle) : list cycle :=
  match l with
  | [] => [c]
  | d :: l' => match ccmp c d with Gt => d :: insert_cycle c l' | _ => c :: l end
  end.
Definition sort_cycles (l : list cycle) : list cycle := fold_right insert_cycle [] l.

(** permutation.rs:272-319 [unfixed_indeces_iter] collected: panics when there is no cycle at all, stops at the
    first empty cycle after the first. *)
Fixpoint unfixed_rest (l : list cycle) : list nat :=
  match l with
  | [] => []
  | c :: l => match c with [] => [] | _ => c ++ unfixed_rest l end
  end.
Definition unfixed (p : perm) : option (list nat) :=
  match p with [] => None | c :: l => Some (c ++ unfixed_rest l) end.

(** permutation.rs:231-249 [from_disjoint_cycles]. *)
Definition from_disjoint_cycles (cycles : list cycle) : option perm :=
  let cs := filter (fun c => negb (match c with [] => true | _ => false end)) cycles in
  let cs := match cs with [] => [[]] | _ => cs end in
  let p := sort_cycles cs in
  do u <- unfixed p;
  if no_repeat [] u then Some p else None.

(** permutation.rs:251-253 [from_cycle], 193-195 [cyclic_from], 401-403 [identity]. *)
Definition from_cycle (c : cycle) : perm := [c].
Definition cyclic_from (a b : nat) : perm := [cycle_cyclic_from a b].
Definition identity : perm := [[]].

(** permutation.rs:255-260 [Permutation::map]. *)
Definition pmap (p : perm) (n : nat) : nat :=
  match find (fun k => negb (k =? n)) (map (fun c => cmap c n) p) with
  | Some k => k
  | None => n
  end.

(** permutation.rs:341-346, the inner loop of [mul]: follow [f] from [elem] until [first]. *)
Fixpoint orbit (fuel : nat) (f : nat -> nat) (first elem : nat) (acc : list nat) : option (list nat) :=
  match fuel with
  | 0 => None
  | S k => if f elem =? first then Some acc else orbit k f first (f elem) (acc ++ [f elem])
  end.

(** permutation.rs:338-354, the outer loop of [mul]. *)
Fixpoint mul_loop (ofuel fuel : nat) (f : nat -> nat) (unf : list nat) (product : list cycle) : option (list cycle) :=
  match unf with
  | [] => Some product
  | x :: _ =>
    match fuel with
    | 0 => None
    | S k =>
      do cyc <- orbit ofuel f x x [x];
      do c <- cycle_from cyc;
      mul_loop ofuel k f (filter (fun y => negb (contains cyc y)) unf) (product ++ [c])
    end
  end.

(** permutation.rs:332-357 [Mul for Permutation] (fuel: the number of listed indices bounds both loops). *)
Definition pmul (p q : perm) : option perm :=
  do uq <- unfixed q;
  do up <- unfixed p;
  let unf := uq ++ up in
  do prod <- mul_loop (S (length unf)) (length unf) (fun x => pmap p (pmap q x)) unf [];
  from_disjoint_cycles prod.

(** permutation.rs:378-382 [Product]: the later factor multiplies on the left. *)
Definition pproduct (l : list perm) : option perm :=
  fold_left (fun acc p => do a <- acc; pmul p a) l (Some identity).

(** permutation.rs:361-375 the macro [permutation!{(a, b)}]. *)
Definition transposition (a b : nat) : option perm :=
  do c <- cycle_from [a; b]; from_disjoint_cycles [c].

Fixpoint omap {A B} (f : A -> option B) (l : list A) : option (list B) :=
  match l with [] => Some [] | x :: l => do y <- f x; do ys <- omap f l; Some (y :: ys) end.

(** permutation.rs:410-428 [in_terms_of_gens], with its debug_assert. *)
Definition cycle_gens (c : cycle) : option (list perm) :=
  match c with
  | [] => None
  | first :: _ => omap (fun e => transposition first e) (filter (fun e => negb (first =? e)) c)
  end.
Definition in_terms_of_gens (p : perm) : option (list perm) :=
  if perm_eq_dec p identity then Some [p]
  else
    do gss <- omap cycle_gens p;
    let gens := concat gss in
    do q <- pproduct gens;
    if perm_eq_dec p q then Some gens else None.

(** non_commutative.rs:9-12 [inverse] with permutation.rs:405-408 [inverse_of_gen]. *)
Definition pinverse (p : perm) : option perm :=
  do gens <- in_terms_of_gens p; pproduct (rev gens).

(** permutation.rs:385-397 [BitXor<i64>]: the range [1..=power] is empty for negative powers. *)
Definition ppow (p : perm) (n : Z) : option perm :=
  if (n =? 0)%Z then Some identity
  else if (0 <? n)%Z then pproduct (repeat p (Z.to_nat n))
  else do inv <- pinverse p; pproduct (repeat inv (Z.to_nat n)).

(** permutation.rs:220-229 [swap_ranges_of_the_same_length] on [a1,b1) and [a2,b2). *)
Definition swap_same (a1 b1 a2 b2 : nat) : option perm :=
  if (b1 <? a1) || (b2 <? a2) then None
  else if negb (b1 <=? a2) then None
  else if negb (b1 - a1 =? b2 - a2) then None
  else omap (fun ij => cycle_from [fst ij; snd ij]) (combine (seq a1 (b1 - a1)) (seq a2 (b2 - a2))).

(** permutation.rs:197-218 [swap] (line 199 has no effect: its value is dropped). *)
Fixpoint pswap (fuel : nat) (a1 b1 a2 b2 : nat) : option perm :=
  match fuel with
  | 0 => None
  | S k =>
    if negb ((b1 <=? a2) || (b2 <=? a1)) then None
    else if b2 <? a1 then pswap k a2 b2 a1 b1
    else if (b1 <? a1) || (b2 <? a2) then None
    else
      let m := b1 - a1 in
      let n := b2 - a2 in
      if m <? n then
        do s <- pswap k a1 a2 a2 (b2 - m);
        do t <- swap_same a1 b1 (b2 - m) b2;
        pmul s t
      else if n <? m then
        do s <- pswap k (a1 + n) b1 b1 b2;
        do t <- swap_same a1 (a1 + n) a2 b2;
        pmul s t
      else swap_same a1 b1 a2 b2
  end.

(** std [slice::swap]. *)
Definition vswap {T} (v : list T) (i j : nat) : option (list T) :=
  do x <- nth_error v i; do y <- nth_error v j;
  let upd (l : list T) k z := firstn k l ++ z :: skipn (S k) l in
  Some (upd (upd v i y) j x).

(** permutation.rs:555-568 [gen_action_by]. *)
Definition gen_action {T} (v : list T) (p : perm) : option (list T) :=
  if perm_eq_dec p identity then Some v
  else
    do u <- unfixed p;
    match u with
    | [i; j] => vswap v i j
    | _ => None
    end.

(** non_commutative.rs:27-32 [action_by], permutation.rs:570-583 [<<], [<<=]. *)
Definition action {T} (v : list T) (p : perm) : option (list T) :=
  do gens <- in_terms_of_gens p;
  fold_left (fun acc g => do w <- acc; gen_action w g) gens (Some v).

(** ** ConstPermutation and VecPermutation: the index table. *)

(** permutation.rs:613-617 [permutation_mul_impl] with [out.len() = n] (indexing panics out of bounds). *)
Definition mul_impl (n : nat) (p1 p2 : list nat) : option (list nat) :=
  omap (fun i => do j <- nth_error p2 i; nth_error p1 j) (seq 0 n).

(** permutation.rs:622-637 ConstPermutation product: both tables have the length [N]. *)
Definition cp_mul (p q : list nat) : option (list nat) := mul_impl (length p) p q.
(** permutation.rs:652-656 [identity]. *)
Definition cp_identity (n : nat) : list nat := seq 0 n.
(** permutation.rs:658-666 and 762-770 [inverse]: the loop [while curr != 0] starts at 0, so it never runs. *)
Definition table_inverse (p : list nat) : list nat := repeat 0 (length p).
(** permutation.rs:674-685 [order]. *)
Fixpoint order_loop (mul : list nat -> list nat -> option (list nat)) (fuel : nat) (p id power : list nat) (order : nat)
  : option nat :=
  match fuel with
  | 0 => None
  | S k => if list_eq_dec Nat.eq_dec power id then Some order
           else do power' <- mul power p; order_loop mul k p id power' (S order)
  end.
Definition cp_order (fuel : nat) (p : list nat) : option nat :=
  order_loop cp_mul fuel p (cp_identity (length p)) p 1.
(** permutation.rs:692-714 VecPermutation product: pad the shorter with fixed points. *)
Definition vp_pad (n : nat) (p : list nat) : list nat := p ++ seq (length p) (n - length p).
Definition vp_mul (p q : list nat) : option (list nat) :=
  let n := Nat.max (length p) (length q) in mul_impl n (vp_pad n p) (vp_pad n q).
(** permutation.rs:758-760 [identity], 777-790 [order], 793-799 [eval]. *)
Definition vp_identity : list nat := [].
Definition vp_order (fuel : nat) (p : list nat) : option nat := order_loop vp_mul fuel p vp_identity p 1.
Definition vp_eval (p : list nat) (i : nat) : nat := if i <? length p then nth i p 0 else i.
