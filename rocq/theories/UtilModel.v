(** Model of util/src/lib.rs: bitwise::count_ones, BinaryPool, LabeledSet, TupleIterator.
    A Rust panic is [None].  [usize] values are [nat] (no property here is about [usize] overflow),
    [u64] words are [N] values below 2^64. *)
From Coq Require Import List Arith NArith Bool.
Import ListNotations.

(** util/src/lib.rs:3-10 [count_ones]: [while data != 0 { count += 1; data &= data-1 }].
    Loop on fuel; [None] = out of fuel (excluded by the theorems). *)
Fixpoint count_ones_loop (fuel : nat) (data : N) (count : nat) : option nat :=
  match fuel with
  | O => None
  | S f => if N.eqb data 0 then Some count
           else count_ones_loop f (N.land data (data - 1)) (S count)
  end.
(** util/src/lib.rs:3-10.  65 loop tests suffice for a 64-bit word (theorem C07). *)
Definition count_ones (data : N) : option nat := count_ones_loop 65 data 0.

(** util/src/lib.rs:15-24 [struct BinaryPool]. *)
Record pool := mkPool { p_len : nat; p_n : nat; p_data : list N }.

(** util/src/lib.rs:27-33 [BinaryPool::new]. *)
Definition pool_new (len : nat) : pool := mkPool len 0 (repeat 0%N (len / 64 + 1)).

(** util/src/lib.rs:115-117 [check_bounds]: panics if [index >= len]. *)
Definition check_bounds (p : pool) (i : nat) : bool := i <? p_len p.

(** The mask [1 << (index % 64)] as a u64, util/src/lib.rs:67,77,111. *)
Definition mask (i : nat) : N := N.shiftl 1 (N.of_nat (i mod 64)).

(** util/src/lib.rs:109-112 [contains]; indexing [self.data[index/64]] may panic as well. *)
Definition pool_contains (p : pool) (i : nat) : option bool :=
  if check_bounds p i then
    match nth_error (p_data p) (i / 64) with
    | None => None
    | Some w => Some (N.eqb (N.land w (mask i)) (mask i))
    end
  else None.

(** [self.data[k] = f(self.data[k])] (panics when out of range); used by util/src/lib.rs:67,77. *)
Fixpoint upd {A} (l : list A) (k : nat) (f : A -> A) : option (list A) :=
  match l, k with
  | [], _ => None
  | x :: r, O => Some (f x :: r)
  | x :: r, S k' => match upd r k' f with None => None | Some r' => Some (x :: r') end
  end.

(** util/src/lib.rs:60-68 [add]. *)
Definition pool_add (p : pool) (i : nat) : option pool :=
  if check_bounds p i then
    match pool_contains p i with
    | None => None
    | Some c =>
        let n := if c then p_n p else S (p_n p) in
        match upd (p_data p) (i / 64) (fun w => N.lor w (mask i)) with
        | None => None
        | Some d => Some (mkPool (p_len p) n d)
        end
    end
  else None.

(** util/src/lib.rs:70-78 [remove]; [n_elements -= 1] underflow panics; [!x] is 64-bit complement. *)
Definition pool_remove (p : pool) (i : nat) : option pool :=
  if check_bounds p i then
    match pool_contains p i with
    | None => None
    | Some c =>
        let n := if c then (match p_n p with O => None | S m => Some m end) else Some (p_n p) in
        match n, upd (p_data p) (i / 64) (fun w => N.land w (N.lnot (mask i) 64)) with
        | Some n, Some d => Some (mkPool (p_len p) n d)
        | _, _ => None
        end
    end
  else None.

(** [iter.for_each(|i| self.add(i))]: used by util/src/lib.rs:47,95. *)
Fixpoint pool_add_all (p : pool) (l : list nat) : option pool :=
  match l with
  | [] => Some p
  | i :: r => match pool_add p i with None => None | Some p' => pool_add_all p' r end
  end.

(** util/src/lib.rs:35-49 [from]: empty list -> [new]; the (odd) test [len < max/64+1] panics;
    then adds every index. *)
Definition pool_from (len : nat) (l : list nat) : option pool :=
  match l with
  | [] => Some (pool_new len)
  | _ => if len <? list_max l / 64 + 1 then None
         else pool_add_all (mkPool len 0 (repeat 0%N (len / 64 + 1))) l
  end.

(** util/src/lib.rs:51-58 [resize]: does nothing when shrinking; else pushes zero words until
    [new_size/64 < data.len()]. *)
Definition pool_resize (p : pool) (n : nat) : pool :=
  if n <? p_len p then p
  else mkPool n (p_n p) (p_data p ++ repeat 0%N (n / 64 + 1 - length (p_data p))).

(** [self.data.iter_mut().zip(other.data.iter()).for_each(|(x,&y)| *x op= y)], util/src/lib.rs:82,89:
    [zip] stops at the shorter list, the rest of [self.data] is unchanged. *)
Fixpoint zip_with_keep (f : N -> N -> N) (a b : list N) : list N :=
  match a, b with
  | x :: a', y :: b' => f x y :: zip_with_keep f a' b'
  | _, _ => a
  end.

(** [self.data.iter().map(count_ones).sum()], util/src/lib.rs:83,90. *)
Fixpoint sum_ones (l : list N) : option nat :=
  match l with
  | [] => Some 0
  | w :: r => match count_ones w, sum_ones r with Some a, Some b => Some (a + b) | _, _ => None end
  end.

(** util/src/lib.rs:80-92 [union], [intersection] ([check_len] at 124-126). *)
Definition pool_combine (f : N -> N -> N) (p q : pool) : option pool :=
  if p_len p =? p_len q then
    let d := zip_with_keep f (p_data p) (p_data q) in
    match sum_ones d with None => None | Some n => Some (mkPool (p_len p) n d) end
  else None.
(** util/src/lib.rs:80-85. *)
Definition pool_union : pool -> pool -> option pool := pool_combine N.lor.
(** util/src/lib.rs:87-92. *)
Definition pool_inter : pool -> pool -> option pool := pool_combine N.land.

(** util/src/lib.rs:94-96 [fill]. *)
Definition pool_fill (p : pool) : option pool := pool_add_all p (seq 0 (p_len p)).

(** util/src/lib.rs:104-106 [n_elements]. *)
Definition pool_n_elements (p : pool) : nat := p_n p.

(** [zip(..).all(|(&x,&y)| x & y == x)], util/src/lib.rs:121. *)
Fixpoint zip_all_sub (a b : list N) : bool :=
  match a, b with
  | x :: a', y :: b' => N.eqb (N.land x y) x && zip_all_sub a' b'
  | _, _ => true
  end.
(** util/src/lib.rs:119-122 [is_subset_of]. *)
Definition pool_is_subset_of (p q : pool) : option bool :=
  if p_len p =? p_len q then Some (zip_all_sub (p_data p) (p_data q)) else None.

(** util/src/lib.rs:128-130 [is_full]. *)
Definition pool_is_full (p : pool) : bool := p_n p =? p_len p.

(** util/src/lib.rs:15 derived [PartialEq]: fieldwise. *)
Fixpoint data_eqb (a b : list N) : bool :=
  match a, b with
  | [], [] => true
  | x :: a', y :: b' => N.eqb x y && data_eqb a' b'
  | _, _ => false
  end.
(** util/src/lib.rs:15. *)
Definition pool_eqb (p q : pool) : bool :=
  (p_len p =? p_len q) && (p_n p =? p_n q) && data_eqb (p_data p) (p_data q).

(** util/src/lib.rs:151-153 [BinaryPoolIter::next]: [self.curr.find(|&i| self.data.contains(i))] over the
    range [start..end]: returns the found index and the range advanced past it.  [rem] = end - start.
    Outer option: panic; inner: [None] = exhausted. *)
Fixpoint pool_iter_next (p : pool) (start rem : nat) : option (option (nat * (nat * nat))) :=
  match rem with
  | O => Some None
  | S r => match pool_contains p start with
           | None => None
           | Some true => Some (Some (start, (S start, r)))
           | Some false => pool_iter_next p (S start) r
           end
  end.
(** util/src/lib.rs:140-154: collect the whole iterator ([iter()] starts at 0..len).  Each [next]
    consumes at least one index, so [len + 1] calls suffice; out of fuel is [None]. *)
Fixpoint pool_iter_run (fuel : nat) (p : pool) (start rem : nat) : option (list nat) :=
  match fuel with
  | O => None
  | S f => match pool_iter_next p start rem with
           | None => None
           | Some None => Some []
           | Some (Some (i, (s', r'))) =>
               match pool_iter_run f p s' r' with None => None | Some l => Some (i :: l) end
           end
  end.
(** util/src/lib.rs:140-154. *)
Definition pool_iter (p : pool) : option (list nat) := pool_iter_run (S (p_len p)) p 0 (p_len p).

(* ------------------------------------------------------------------ LabeledSet *)
Section Labeled.
  Context {T : Type} (eqb : T -> T -> bool).

  (** util/src/lib.rs:253-258 [struct LabeledSet]. *)
  Record lset := mkLset { l_set : pool; l_labels : list T }.

  (** util/src/lib.rs:263-268 [new]. *)
  Definition lset_new (labels : list T) : lset := mkLset (pool_new (length labels)) labels.

  (** [self.labels.iter().position(|l| l == &label)], util/src/lib.rs:271,278. *)
  Fixpoint position (l : list T) (x : T) : option nat :=
    match l with
    | [] => None
    | y :: r => if eqb y x then Some 0 else option_map S (position r x)
    end.

  (** util/src/lib.rs:270-275 [add]. *)
  Definition lset_add (s : lset) (x : T) : option lset :=
    match position (l_labels s) x with
    | None => None
    | Some i => option_map (fun p => mkLset p (l_labels s)) (pool_add (l_set s) i)
    end.

  (** util/src/lib.rs:277-282 [remove]. *)
  Definition lset_remove (s : lset) (x : T) : option lset :=
    match position (l_labels s) x with
    | None => None
    | Some i => option_map (fun p => mkLset p (l_labels s)) (pool_remove (l_set s) i)
    end.

  (** util/src/lib.rs:284-286 [n_elements]. *)
  Definition lset_n_elements (s : lset) : nat := p_n (l_set s).

  (** [&self.data.labels[i]] for each index, util/src/lib.rs:301-307; panics when out of range. *)
  Fixpoint lookup_all {A} (l : list A) (ix : list nat) : option (list A) :=
    match ix with
    | [] => Some []
    | i :: r => match nth_error l i, lookup_all l r with
                | Some x, Some xs => Some (x :: xs)
                | _, _ => None
                end
    end.

  (** util/src/lib.rs:301-319 [iter], collected. *)
  Definition lset_iter (s : lset) : option (list T) :=
    match pool_iter (l_set s) with None => None | Some ix => lookup_all (l_labels s) ix end.
End Labeled.
Arguments lset : clear implicits.

(* ------------------------------------------------------------------ TupleIterator *)

(** util/src/lib.rs:371-376 [struct TupleIterator]; the slice is represented by its length [t_dlen]
    (elements are looked up by [lookup_all]). *)
Record tupit := mkTup { t_dlen : nat; t_idx : list nat; t_cur : nat; t_done : bool }.

(** util/src/lib.rs:379-390 [new]; [size-1] underflows (panics) for [size = 0]. *)
Definition tup_new (dlen size : nat) : option tupit :=
  match size with
  | O => None
  | S k => Some (mkTup dlen (seq 0 size) k (dlen <? size))
  end.

(** util/src/lib.rs:392-406 [is_blocked]; [len()-1] underflows panic. *)
Definition tup_is_blocked (t : tupit) : option bool :=
  match length (t_idx t) with
  | O => None
  | S lm =>
      if lm <=? t_cur t then
        match nth_error (t_idx t) (t_cur t), t_dlen t with
        | Some v, S dm => Some (dm <=? v)
        | _, _ => None
        end
      else
        match nth_error (t_idx t) (t_cur t), nth_error (t_idx t) (S (t_cur t)) with
        | Some a, Some b => Some (S a =? b)
        | _, _ => None
        end
  end.

(** checked [usize] subtraction. *)
Definition csub (a b : nat) : option nat := if b <=? a then Some (a - b) else None.

(** util/src/lib.rs:420-422: [while curr_idx > 0 && indeces[curr]-indeces[curr-1]==1 { curr -= 1 }];
    recursion on [curr]. *)
Fixpoint tup_back (idx : list nat) (cur : nat) : option nat :=
  match cur with
  | O => Some 0
  | S c => match nth_error idx (S c), nth_error idx c with
           | Some a, Some b =>
               match csub a b with
               | None => None
               | Some d => if d =? 1 then tup_back idx c else Some (S c)
               end
           | _, _ => None
           end
  end.

(** util/src/lib.rs:430-432: subtract [diff] from [indeces[cur..]] (checked). *)
Fixpoint sub_all (l : list nat) (d : nat) : option (list nat) :=
  match l with
  | [] => Some []
  | x :: r => match csub x d, sub_all r d with Some y, Some r' => Some (y :: r') | _, _ => None end
  end.

(** util/src/lib.rs:412-440 [next], returning the index tuple.  Outer option: panic. *)
Definition tup_next (t : tupit) : option (option (list nat) * tupit) :=
  if t_done t then Some (None, t) else
  let out := t_idx t in
  match tup_is_blocked t with
  | None => None
  | Some true =>
      match tup_back (t_idx t) (t_cur t) with
      | None => None
      | Some O => Some (Some out, mkTup (t_dlen t) (t_idx t) 0 true)
      | Some (S c) =>
          match upd (t_idx t) c S with
          | None => None
          | Some idx1 =>
              match nth_error idx1 (S c), nth_error idx1 c with
              | Some a, Some b =>
                  match csub a b with
                  | None => None
                  | Some d0 =>
                      match csub d0 1 with
                      | None => None
                      | Some diff =>
                          match sub_all (skipn (S c) idx1) diff with
                          | None => None
                          | Some tl' =>
                              Some (Some out,
                                mkTup (t_dlen t) (firstn (S c) idx1 ++ tl') (length idx1 - 1) false)
                          end
                      end
                  end
              | _, _ => None
              end
          end
      end
  | Some false =>
      match upd (t_idx t) (t_cur t) S with
      | None => None
      | Some idx1 => Some (Some out, mkTup (t_dlen t) idx1 (t_cur t) false)
      end
  end.

(** Collecting the iterator with at most [fuel] calls of [next] (util/src/lib.rs:409-440). *)
Fixpoint tup_run (fuel : nat) (t : tupit) : option (list (list nat)) :=
  match fuel with
  | O => None
  | S f => match tup_next t with
           | None => None
           | Some (None, _) => Some []
           | Some (Some x, t') => match tup_run f t' with None => None | Some l => Some (x :: l) end
           end
  end.

(** util/src/lib.rs:443-451 [tuple_iter(size)] on a slice, collected: element tuples. *)
Definition tuple_iter_collect {A} (fuel : nat) (data : list A) (size : nat) : option (list (list A)) :=
  match tup_new (length data) size with
  | None => None
  | Some t => match tup_run fuel t with
              | None => None
              | Some l => fold_right (fun ix acc => match lookup_all data ix, acc with
                                                    | Some x, Some xs => Some (x :: xs) | _, _ => None end)
                                     (Some []) l
              end
  end.

